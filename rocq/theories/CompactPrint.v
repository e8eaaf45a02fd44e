(** * CompactPrint: a canonical text of every printable schema.

    Not part of the code (relaxng-rust has no printer): a reference printer, used to state that the
    parser inverts it.  [Printable] says which schemas have a compact text at all: names are names,
    literals can be quoted, the left operand of an infix operator and the operand of a postfix
    operator are not themselves infix (the syntax tree keeps parentheses, [SGroup]). *)
From Coq Require Import String.
From Verif Require Import Base Datatype Syntax CompactParse CompactText CompactLex CompactSound.
#[local] Existing Instance strict_mode.

Definition sp : str := [32%N].
Fixpoint join (l : list str) : str :=
  match l with [] => [] | x :: l' => match l' with [] => x | _ => x ++ sp ++ join l' end end.
Definition lacks (q : N) (b : str) : bool := forallb (fun c => negb (c =? q)%N && negb (c =? 10)%N) b.
(** no three [q] in a row, and no [q] at the end; [k] is the number of [q] just seen *)
Fixpoint triple_ok (q : N) (k : nat) (b : str) : bool :=
  match b with
  | [] => k =? 0
  | c :: b' => if (c =? q)%N then (k <? 2) && triple_ok q (S k) b' else triple_ok q 0 b'
  end.
Definition print_segment (b : str) : str :=
  if lacks 34 b then 34%N :: b ++ [34%N]
  else if lacks 39 b then 39%N :: b ++ [39%N]
  else if triple_ok 34 0 b then [34; 34; 34]%N ++ b ++ [34; 34; 34]%N
  else [39; 39; 39]%N ++ b ++ [39; 39; 39]%N.
Fixpoint print_lit (l : literal) : str :=
  match l with [] => [] | b :: l' => match l' with [] => print_segment b | _ => print_segment b ++ sp ++ lit "~" ++ sp ++ print_lit l' end end.
Definition print_name (n : sname) : str :=
  match n with NmId i => ik_string i | NmC p l => p ++ lit ":" ++ l | NmNs _ _ => [] end.
Definition print_attr (a : annot_attr) : str := print_name (fst a) ++ [] ++ lit "=" ++ [] ++ print_lit (snd a).
Fixpoint print_annot (a : annot) : str :=
  match a with
  | Annot n atts kids =>
      print_name n ++ sp ++ lit "[" ++ [] ++ join (map print_attr atts) ++ sp
      ++ join (map (fun k => match k with inl a => print_annot a | inr l => print_lit l end) kids) ++ [] ++ lit "]"
  end.
Definition print_initial (i : initial) : str :=
  lit "[" ++ [] ++ join (map print_attr (in_atts i)) ++ sp ++ join (map print_annot (in_elems i)) ++ [] ++ lit "]".
Fixpoint print_nc (n : snc) : str :=
  match n with
  | CName n => print_name n
  | CNs (NsPrefix p) None => p ++ lit ":*"
  | CNs (NsPrefix p) (Some e) => p ++ lit ":*" ++ sp ++ lit "-" ++ sp ++ print_nc e
  | CNs (NsUri _) _ => []
  | CAny None => lit "*"
  | CAny (Some e) => lit "*" ++ sp ++ lit "-" ++ sp ++ print_nc e
  | CAlt a b => print_nc a ++ [] ++ sp ++ lit "|" ++ sp ++ print_nc b
  | CParen a => lit "(" ++ [] ++ print_nc a ++ [] ++ lit ")"
  end.
Definition print_dt (d : sdtname) : str :=
  match d with SdString => lit "string" | SdToken => lit "token" | SdC p l => p ++ lit ":" ++ l | SdNs _ _ => [] end.
Definition print_param (x : sparam) : str :=
  let '(an, n, l) := x in
  (match an with Some i => print_initial i ++ sp | None => [] end) ++ [] ++ ik_string n ++ sp ++ lit "=" ++ sp ++ print_lit l.
Definition print_params (ps : option (list sparam)) : str :=
  match ps with None => [] | Some l => sp ++ lit "{" ++ sp ++ join (map print_param l) ++ sp ++ lit "}" end.
Definition print_inherit (i : option id_or_kw) : str :=
  match i with None => [] | Some i => sp ++ lit "inherit" ++ sp ++ lit "=" ++ sp ++ ik_string i end.
Definition print_method (m : method) : str := match m with MAssign => lit "=" | MChoiceC => lit "|=" | MInterleaveC => lit "&=" end.
Fixpoint print_pat (p : spat) : str :=
  match p with
  | SElement nc p => lit "element" ++ sp ++ print_nc nc ++ sp ++ lit "{" ++ sp ++ print_pat p ++ sp ++ lit "}"
  | SAttribute nc p => lit "attribute" ++ sp ++ print_nc nc ++ sp ++ lit "{" ++ sp ++ print_pat p ++ sp ++ lit "}"
  | SList p => lit "list" ++ sp ++ lit "{" ++ sp ++ print_pat p ++ sp ++ lit "}"
  | SMixed p => lit "mixed" ++ sp ++ lit "{" ++ sp ++ print_pat p ++ sp ++ lit "}"
  | SIdent i => i
  | SParent i => lit "parent" ++ sp ++ i
  | SEmpty => lit "empty" | SText => lit "text" | SNotAllowed => lit "notAllowed"
  | SExternal h i => lit "external" ++ sp ++ print_lit h ++ print_inherit i
  | SGrammar l => lit "grammar" ++ sp ++ lit "{" ++ sp ++ join (map print_item l) ++ sp ++ lit "}"
  | SGroup p => lit "(" ++ [] ++ print_pat p ++ [] ++ lit ")"
  | SListPair a b => print_pat a ++ [] ++ lit "," ++ sp ++ print_pat b
  | SInterleavePair a b => print_pat a ++ sp ++ lit "&" ++ sp ++ print_pat b
  | SChoicePair a b => print_pat a ++ sp ++ lit "|" ++ sp ++ print_pat b
  | SOptional p => print_pat p ++ [] ++ lit "?"
  | SZeroOrMore p => print_pat p ++ [] ++ lit "*"
  | SOneOrMore p => print_pat p ++ [] ++ lit "+"
  | SValue None l => print_lit l
  | SValue (Some d) l => print_dt d ++ sp ++ print_lit l
  | SData d ps None => print_dt d ++ print_params ps
  | SData d ps (Some e) => print_dt d ++ print_params ps ++ sp ++ lit "-" ++ sp ++ print_pat e
  end
with print_item (g : gcontent) : str :=
  match g with
  | GDefine n h p => n ++ sp ++ print_method h ++ sp ++ print_pat p
  | GDiv l => lit "div" ++ sp ++ lit "{" ++ sp ++ join (map print_item l) ++ sp ++ lit "}"
  | GInclude h i None => lit "include" ++ sp ++ print_lit h ++ print_inherit i
  | GInclude h i (Some ov) => lit "include" ++ sp ++ print_lit h ++ print_inherit i ++ sp ++ lit "{" ++ sp ++ join (map print_override ov) ++ sp ++ lit "}"
  | GAnnotation a => print_annot a
  end
with print_override (i : icontent) : str :=
  match i with
  | IDefine n h p => n ++ sp ++ print_method h ++ sp ++ print_pat p
  | IDiv l => lit "div" ++ sp ++ lit "{" ++ sp ++ join (map print_override l) ++ sp ++ lit "}"
  | IAnnotation a => print_annot a
  end.
Definition print_uri (u : uri_lit) : str := match u with UInherit => lit "inherit" | UUri l => print_lit l end.
Definition print_decl (d : decl) : str :=
  match d with
  | DNamespace p u => lit "namespace" ++ sp ++ p ++ sp ++ lit "=" ++ sp ++ print_uri u
  | DDefault None u => lit "default" ++ sp ++ lit "namespace" ++ sp ++ lit "=" ++ sp ++ print_uri u
  | DDefault (Some p) u => lit "default" ++ sp ++ lit "namespace" ++ sp ++ p ++ sp ++ lit "=" ++ sp ++ print_uri u
  | DDatatypes p l => lit "datatypes" ++ sp ++ p ++ sp ++ lit "=" ++ sp ++ print_lit l
  end.
Definition print_schema (x : schema) : str :=
  join (map print_decl (s_decls x)) ++ [10%N]
  ++ (match s_top x with TPattern p => print_pat p | TGrammar l => join (map print_item l) end) ++ [10%N].

(** ** What can be printed *)
Definition seg_ok (b : str) : Prop := exists s, Segment b s.
Definition lit_ok (l : literal) : Prop := l <> [] /\ Forall seg_ok l.
Definition idkw_ok (i : id_or_kw) : Prop := match i with IKId s => Ident s | IKKw s => In s Keywords end.
Definition name_ok (n : sname) : Prop :=
  match n with NmId i => idkw_ok i | NmC p l => NCName p /\ NCName l | NmNs _ _ => False end.
Definition attr_ok (a : annot_attr) : Prop := name_ok (fst a) /\ lit_ok (snd a).
Fixpoint annot_ok (a : annot) : Prop :=
  match a with
  | Annot n atts kids =>
      name_ok n /\ Forall attr_ok atts
      /\ (fix all l := match l with [] => True | inl a :: l' => annot_ok a /\ all l' | inr l0 :: l' => lit_ok l0 /\ all l' end) kids
  end.
Definition initial_ok (i : initial) : Prop := Forall attr_ok (in_atts i) /\ Forall annot_ok (in_elems i).
(** [tight]: in a position where a choice or an exception would need parentheses *)
Fixpoint nc_ok (tight : bool) (n : snc) : Prop :=
  match n with
  | CName n => name_ok n
  | CNs (NsPrefix p) None => NCName p
  | CNs (NsPrefix p) (Some e) => tight = false /\ NCName p /\ nc_ok false e
  | CNs (NsUri _) _ => False
  | CAny None => True
  | CAny (Some e) => tight = false /\ nc_ok false e
  | CAlt a b => tight = false /\ nc_ok true a /\ nc_ok false b
  | CParen a => nc_ok false a
  end.
Definition dt_ok (d : sdtname) : Prop :=
  match d with SdString | SdToken => True | SdC p l => NCName p /\ no_type_keyword p /\ NCName l | SdNs _ _ => False end.
Definition param_ok (x : sparam) : Prop :=
  let '(an, n, l) := x in (match an with Some i => initial_ok i | None => True end) /\ idkw_ok n /\ lit_ok l.
Definition inherit_ok (i : option id_or_kw) : Prop := match i with Some i => idkw_ok i | None => True end.
Fixpoint pat_printable (tight : bool) (p : spat) : Prop :=
  match p with
  | SElement nc p | SAttribute nc p => nc_ok false nc /\ pat_printable false p
  | SList p | SMixed p | SGroup p => pat_printable false p
  | SIdent i => Ident i /\ no_type_keyword i
  | SParent i => Ident i
  | SEmpty | SText | SNotAllowed => True
  | SExternal h i => lit_ok h /\ inherit_ok i
  | SGrammar l => (fix all l := match l with [] => True | x :: l' => item_printable x /\ all l' end) l
  | SListPair a b | SInterleavePair a b | SChoicePair a b => tight = false /\ pat_printable true a /\ pat_printable false b
  | SOptional p | SZeroOrMore p | SOneOrMore p => pat_printable true p
  | SValue n l => (match n with Some d => dt_ok d | None => True end) /\ lit_ok l
  | SData d ps ex => dt_ok d /\ (match ps with Some l => Forall param_ok l | None => True end)
      /\ match ex with Some e => tight = false /\ pat_printable false e | None => True end
  end
with item_printable (g : gcontent) : Prop :=
  match g with
  | GDefine n h p => (n = lit "start" \/ Ident n) /\ pat_printable false p
  | GDiv l => (fix all l := match l with [] => True | x :: l' => item_printable x /\ all l' end) l
  | GInclude h i ov => lit_ok h /\ inherit_ok i
      /\ match ov with Some l => (fix all l := match l with [] => True | x :: l' => override_printable x /\ all l' end) l | None => True end
  | GAnnotation a => annot_ok a
  end
with override_printable (i : icontent) : Prop :=
  match i with
  | IDefine n h p => (n = lit "start" \/ Ident n) /\ pat_printable false p
  | IDiv l => (fix all l := match l with [] => True | x :: l' => override_printable x /\ all l' end) l
  | IAnnotation a => annot_ok a
  end.
Definition uri_ok (u : uri_lit) : Prop := match u with UInherit => True | UUri l => lit_ok l end.
Definition prefix_ok (p : str) : Prop := Ident p \/ In p Keywords.
Definition decl_ok (d : decl) : Prop :=
  match d with
  | DNamespace p u => prefix_ok p /\ uri_ok u
  | DDefault p u => (match p with Some p => prefix_ok p | None => True end) /\ uri_ok u
  | DDatatypes p l => prefix_ok p /\ lit_ok l
  end.
Definition Printable (x : schema) : Prop :=
  Forall decl_ok (s_decls x) /\
  match s_top x with TPattern p => pat_printable false p | TGrammar l => l <> [] /\ Forall item_printable l end.

(** ** The canonical text denotes the schema *)
Lemma gap_sp : Gap sp. Proof. constructor; [left; reflexivity | constructor]. Qed.
Lemma gap1_sp : Gap1 sp. Proof. split; [apply gap_sp | discriminate]. Qed.
Lemma gap_lf : Gap [10%N]. Proof. constructor; [cbn; auto | constructor]. Qed.
Lemma join_cons x y l : join (x :: y :: l) = x ++ sp ++ join (y :: l). Proof. reflexivity. Qed.
Lemma seq_join {A} (X : A -> str -> Prop) f l : Forall (fun a => X a (f a)) l -> Seq X l (join (map f l)).
Proof.
  intros H. induction H as [|a l Ha Hl IH]; [constructor|]. destruct l as [|b l]; [constructor; exact Ha|].
  cbn [map]. rewrite join_cons. constructor; [exact Ha | apply gap1_sp | discriminate | exact IH].
Qed.
Lemma lacks_ok q b : lacks q b = true <-> Forall (fun c => c <> q /\ c <> 10%N) b.
Proof.
  unfold lacks. rewrite forallb_forall, Forall_forall. split; intros H c Hc; specialize (H c Hc).
  - apply andb_true_iff in H as [H1 H2]. apply negb_true_iff, N.eqb_neq in H1, H2. auto.
  - destruct H as [H1 H2]. apply andb_true_iff. rewrite !negb_true_iff, !N.eqb_neq. auto.
Qed.
Lemma triple_sound q : forall b k, triple_ok q k b = true -> k <= 2 -> Body3 q (repeat q k ++ b).
Proof.
  induction b as [|c b IH]; intros k H Hk; cbn [triple_ok] in H.
  - apply Nat.eqb_eq in H as ->. constructor.
  - destruct (N.eqb_spec c q) as [-> | Hc].
    + apply andb_true_iff in H as [H1 H2]. apply Nat.ltb_lt in H1. apply IH in H2; [|lia]. replace (repeat q k ++ q :: b) with (repeat q (S k) ++ b); [exact H2|].
      change (q :: b) with ([q] ++ b). rewrite app_assoc. f_equal. rewrite <- repeat_cons. reflexivity.
    + constructor; [exact Hk | exact Hc|]. apply (IH 0); [exact H | lia].
Qed.
Lemma triple_complete q b : Body3 q b -> triple_ok q 0 b = true.
Proof.
  intros H. induction H as [|k c b Hk Hc Hb IH]; [reflexivity|].
  assert (Hx : forall j m, j + m <= 2 -> triple_ok q j (repeat q m ++ c :: b) = true).
  { intros j m. revert j. induction m as [|m IHm]; intros j Hj; cbn [triple_ok repeat app].
    - apply N.eqb_neq in Hc. rewrite Hc. exact IH.
    - rewrite N.eqb_refl. apply andb_true_iff. split; [apply Nat.ltb_lt; lia | apply IHm; lia]. }
  apply Hx. lia.
Qed.
Lemma segment_print b : seg_ok b -> Segment b (print_segment b).
Proof.
  intros [s H]. unfold print_segment. destruct (lacks 34 b) eqn:E1; [constructor; [auto | apply lacks_ok, E1]|].
  destruct (lacks 39 b) eqn:E2; [constructor; [auto | apply lacks_ok, E2]|].
  destruct (triple_ok 34 0 b) eqn:E3; [apply Seg_triple; [auto | apply (triple_sound 34 b 0 E3); lia]|].
  apply Seg_triple; [auto|]. inversion H as [q b' [-> | ->] Hb | q b' [-> | ->] Hb]; subst.
  - apply lacks_ok in Hb. congruence.
  - apply lacks_ok in Hb. congruence.
  - apply triple_complete in Hb. congruence.
  - exact Hb.
Qed.
Lemma lit_print l : lit_ok l -> Lit l (print_lit l).
Proof.
  intros [Hn H]. induction H as [|b l Hb Hl IH]; [congruence|]. cbn [print_lit]. destruct l as [|c l]; [constructor; apply segment_print, Hb|].
  constructor; [apply segment_print, Hb | apply gap_sp..|]. apply IH. discriminate.
Qed.
Lemma idkw_print i : idkw_ok i -> IdKw i (ik_string i).
Proof. destruct i; intros H; constructor; exact H. Qed.
Lemma name_print n : name_ok n -> Name n (print_name n).
Proof. destruct n as [i | p l | u l]; intros H; [constructor; apply idkw_print, H | destruct H; constructor; assumption | destruct H]. Qed.
Lemma attr_print a : attr_ok a -> AnnAttr a (print_attr a).
Proof. destruct a as [n l]. intros [H1 H2]. unfold print_attr. constructor; [apply name_print, H1 | constructor..| apply lit_print, H2]. Qed.
Lemma attrs_print l : Forall attr_ok l -> Seq AnnAttr l (join (map print_attr l)).
Proof. intros H. apply seq_join. eapply Forall_impl; [|exact H]. exact attr_print. Qed.
Fixpoint annot_print (a : annot) : annot_ok a -> AnnElem a (print_annot a).
Proof.
  destruct a as [n atts kids]. cbn [annot_ok print_annot]. intros (Hn & Ha & Hk). apply AE.
  - apply name_print, Hn.
  - apply gap_sp.
  - constructor.
  - apply attrs_print, Ha.
  - apply gap_sp.
  - intros _ _. right. discriminate.
  - apply seq_join. induction kids as [|k kids IH]; [constructor|]. destruct k as [b | l]; destruct Hk as [H1 H2].
    + constructor; [apply AK_elem, annot_print, H1 | apply IH, H2].
    + constructor; [apply AK_lit, lit_print, H1 | apply IH, H2].
  - constructor.
Qed.
Lemma initial_print i : initial_ok i -> Initial_ i (print_initial i).
Proof.
  destruct i as [atts els]. intros [H1 H2]. unfold print_initial. cbn [in_atts in_elems] in *. apply In_ann; [constructor | apply attrs_print, H1 | apply gap_sp | intros _ _; right; discriminate | | constructor].
  apply seq_join. eapply Forall_impl; [|exact H2]. exact annot_print.
Qed.
Lemma follows0 : Follows []. Proof. constructor. Qed.
Lemma nc_print : forall n, (nc_ok true n -> NcPrim n (print_nc n)) /\ (nc_ok false n -> Nc n (print_nc n)).
Proof.
  assert (Hup : forall n s, NcPrim n s -> Nc n s).
  { intros n s H. replace s with ([] ++ s ++ []) by (cbn; apply app_nil_r). apply (Nc_prim None); [constructor | exact H | constructor | reflexivity]. }
  fix IH 1. intros n. destruct n as [nm | [p | u] [e|] | [e|] | a b | a]; cbn [nc_ok print_nc].
  - assert (name_ok nm -> NcPrim (CName nm) (print_name nm)) by (intros H; constructor; apply name_print, H). auto.
  - split; [intros [H _]; discriminate H|]. intros (_ & Hp & He). apply (Nc_ns_except None []); [constructor | exact Hp | apply gap_sp | apply gap_sp | apply IH, He].
  - assert (NCName p -> NcPrim (CNs (NsPrefix p) None) (p ++ lit ":*")) by (intros H; constructor; exact H). auto.
  - split; intros [].
  - split; intros [].
  - split; [intros [H _]; discriminate H|]. intros (_ & He). apply (Nc_any_except None []); [constructor | apply gap_sp | apply gap_sp | apply IH, He].
  - assert (NcPrim (CAny None) (lit "*")) by constructor. auto.
  - split; [intros [H _]; discriminate H|]. intros (_ & Ha & Hb). apply (Nc_alt None []); [constructor | apply IH, Ha | constructor | reflexivity | apply gap_sp | apply gap_sp | apply IH, Hb].
  - assert (nc_ok false a -> NcPrim (CParen a) (lit "(" ++ [] ++ print_nc a ++ [] ++ lit ")")) by (intros H; apply Np_paren; [constructor | apply IH, H | constructor]). auto.
Qed.
Lemma dt_print d : dt_ok d -> DtName d (print_dt d).
Proof. destruct d; cbn; intros H; try constructor; try (destruct H as (? & ? & ?); assumption). destruct H. Qed.
Lemma param_print x : param_ok x -> Param x (print_param x).
Proof.
  destruct x as [[an n] l]. intros (Ha & Hn & Hl). unfold print_param. apply Pm.
  - destruct an as [i|]; [constructor; [apply initial_print, Ha | apply gap_sp] | constructor].
  - constructor.
  - right. reflexivity.
  - apply idkw_print, Hn.
  - apply gap_sp.
  - apply gap_sp.
  - apply lit_print, Hl.
Qed.
Lemma params_print ps : match ps with Some l => Forall param_ok l | None => True end -> Params ps (print_params ps).
Proof.
  destruct ps as [l|]; [|constructor]. intros H. constructor; try apply gap_sp. apply seq_join. eapply Forall_impl; [|exact H]. exact param_print.
Qed.
Lemma inherit_print i : inherit_ok i -> Inherit i (print_inherit i).
Proof. destruct i as [i|]; [|constructor]. intros H. constructor; [apply gap1_sp | apply gap_sp | apply gap_sp | apply idkw_print, H]. Qed.
Lemma method_print m : Method m (print_method m).
Proof. destruct m; constructor. Qed.

(** a primary pattern and postfix operators *)
Definition Post (p : spat) (s : str) : Prop := exists b t o, Prim b t /\ Postfixes b p o /\ s = t ++ o.
Lemma post_prim p s : Prim p s -> Post p s.
Proof. intros H. exists p, s, []. split; [exact H|]. split; [constructor | symmetry; apply app_nil_r]. Qed.
Lemma postfixes_snoc b p o c op g : Postfixes b p o -> PostfixOp c op -> Gap g -> Postfixes b (c p) (o ++ g ++ op).
Proof.
  intros H Hc Hg. induction H as [p | p q c' op' g' s Hc' Hg' Hs IH].
  - cbn [app]. rewrite <- (app_nil_r op). econstructor; [exact Hc | exact Hg | constructor].
  - rewrite <- !app_assoc. econstructor; [exact Hc' | exact Hg' | exact IH].
Qed.
Lemma post_post p s c op : Post p s -> PostfixOp c op -> Post (c p) (s ++ [] ++ op).
Proof.
  intros (b & t & o & H1 & H2 & ->) Hc. exists b, t, (o ++ [] ++ op). split; [exact H1|]. split; [eapply postfixes_snoc; [exact H2 | exact Hc | constructor] | rewrite <- app_assoc; reflexivity].
Qed.
Lemma post_pat p s : Post p s -> Pat p s.
Proof. intros (b & t & o & H1 & H2 & ->). change (t ++ o) with ([] ++ t ++ [] ++ o). eapply (Pt_postfix None); [constructor | exact H1 | constructor | exact H2]. Qed.
Lemma post_infix p s c op g r t : Post p s -> InfixOp c op -> Gap g -> Pat r t -> Pat (c p r) (s ++ g ++ op ++ sp ++ t).
Proof.
  intros (b & u & o & H1 & H2 & ->) Hc Hg Hr. rewrite <- !app_assoc. change (u ++ o ++ g ++ op ++ sp ++ t) with ([] ++ u ++ [] ++ o ++ g ++ op ++ sp ++ t).
  eapply (Pt_infix None); [constructor | exact H1 | constructor | exact H2 | exact Hg | exact Hc | apply gap_sp | exact Hr].
Qed.
Definition PP (p : spat) : Prop := (pat_printable true p -> Post p (print_pat p)) /\ (pat_printable false p -> Pat p (print_pat p)).
Definition GP (g : gcontent) : Prop := item_printable g -> GItem g (print_item g).
Definition IP (i : icontent) : Prop := override_printable i -> IItem i (print_override i).
Lemma pp_prim p : (pat_printable false p -> Prim p (print_pat p)) -> (pat_printable true p -> pat_printable false p) -> PP p.
Proof. intros H E. split; intros Hp; [apply post_prim, H, E, Hp | apply post_pat, post_prim, H, Hp]. Qed.
Lemma all_items l : Forall GP l -> (fix all l := match l with [] => True | x :: l' => item_printable x /\ all l' end) l -> Seq GItem l (join (map print_item l)).
Proof. intros H Hl. apply seq_join. induction H as [|x l Hx Hxs IH]; [constructor|]. destruct Hl as [H1 H2]. constructor; [apply Hx, H1 | apply IH, H2]. Qed.
Lemma all_overrides l : Forall IP l -> (fix all l := match l with [] => True | x :: l' => override_printable x /\ all l' end) l -> Seq IItem l (join (map print_override l)).
Proof. intros H Hl. apply seq_join. induction H as [|x l Hx Hxs IH]; [constructor|]. destruct Hl as [H1 H2]. constructor; [apply Hx, H1 | apply IH, H2]. Qed.
Lemma pp_infix c op g a b s : InfixOp c op -> Gap g -> PP a -> PP b -> s = print_pat a ++ g ++ op ++ sp ++ print_pat b ->
  pat_printable true a -> pat_printable false b -> Pat (c a b) s.
Proof. intros Hc Hg [Ha _] [_ Hb] -> H1 H2. eapply post_infix; [apply Ha, H1 | exact Hc | exact Hg | apply Hb, H2]. Qed.
Theorem print_denotes : (forall p, PP p) /\ (forall g, GP g) /\ (forall i, IP i).
Proof.
  split; [|split]; [apply (spat_ind' PP GP IP) | apply (gcontent_ind' PP GP IP) | apply (icontent_ind' PP GP IP)].
  all: try (intros nc p [_ IH]; apply pp_prim; [intros [H1 H2]; cbn [print_pat] | exact (fun x => x)]; eapply Pr_named; [constructor | apply gap1_sp | apply nc_print, H1 | apply gap_sp | apply gap_sp | apply IH, H2 | apply gap_sp]).
  all: try (intros p [_ IH]; apply pp_prim; [intros H1; cbn [print_pat] | exact (fun x => x)]; eapply Pr_braced; [constructor | apply gap_sp | apply gap_sp | apply IH, H1 | apply gap_sp]).
  all: try (intros i; apply pp_prim; [intros [H1 H2]; cbn [print_pat]; constructor; assumption | exact (fun x => x)]).
  all: try (intros i; apply pp_prim; [intros H1; cbn [print_pat]; constructor; [apply gap1_sp | exact H1] | exact (fun x => x)]).
  all: try (apply pp_prim; [intros _; cbn [print_pat]; apply Pr_plain; constructor | exact (fun x => x)]).
  all: try (intros h i; apply pp_prim; [intros [H1 H2]; cbn [print_pat]; constructor; [apply gap1_sp | apply lit_print, H1 | apply inherit_print, H2] | exact (fun x => x)]).
  all: try (intros l IH; apply pp_prim; [intros H1; cbn [print_pat]; constructor; [apply gap_sp | apply gap_sp | apply all_items; assumption | apply gap_sp] | exact (fun x => x)]).
  all: try (intros p [_ IH]; apply pp_prim; [intros H1; cbn [print_pat]; apply Pr_group; [constructor | apply IH, H1 | constructor] | exact (fun x => x)]).
  all: try (intros a b Ha Hb; split; [intros [H _]; discriminate H | intros (_ & H1 & H2); eapply pp_infix; [constructor | | exact Ha | exact Hb | reflexivity | exact H1 | exact H2]; first [apply gap_sp | constructor]]).
  all: try (intros p [IH _]; assert (X : pat_printable true p -> Post (SOptional p) (print_pat (SOptional p))) by (intros H; cbn [print_pat]; apply post_post; [apply IH, H | constructor]); split; [exact X | intros H; apply post_pat, X, H]).
  all: try (intros p [IH _]; assert (X : pat_printable true p -> Post (SZeroOrMore p) (print_pat (SZeroOrMore p))) by (intros H; cbn [print_pat]; apply post_post; [apply IH, H | constructor]); split; [exact X | intros H; apply post_pat, X, H]).
  all: try (intros p [IH _]; assert (X : pat_printable true p -> Post (SOneOrMore p) (print_pat (SOneOrMore p))) by (intros H; cbn [print_pat]; apply post_post; [apply IH, H | constructor]); split; [exact X | intros H; apply post_pat, X, H]).
  all: try (intros n v; apply pp_prim; [intros [H1 H2]; destruct n as [d|]; cbn [print_pat]; [constructor; [apply dt_print, H1 | apply gap_sp | apply lit_print, H2] | apply (Pr_value_plain []); [constructor | right; reflexivity | apply lit_print, H2]] | exact (fun x => x)]).
  all: try (intros n ps ex IH; destruct ex as [e|];
    [split; [intros (_ & _ & H & _); discriminate H | intros (H1 & H2 & _ & H3); apply (Pt_except None []); [constructor | apply dt_print, H1 | apply params_print, H2 | apply gap_sp | intros _; right; discriminate | apply gap_sp | apply IH, H3]]
    | apply pp_prim; [intros (H1 & H2 & _); constructor; [apply dt_print, H1 | apply params_print, H2] | exact (fun x => x)]]).
  all: try (intros n h p [_ IH] [[-> | Hn] Hp]; cbn [print_item]; constructor; try apply gap_sp; try apply method_print; try (apply IH, Hp); exact Hn).
  all: try (intros l IH H; cbn [print_item]; constructor; try apply gap_sp; apply all_items; assumption).
  all: try (intros h i ov IH (H1 & H2 & H3); destruct ov as [ov|]; cbn [print_item]; constructor; try apply gap_sp; try apply gap1_sp; [apply lit_print, H1 | apply inherit_print, H2 | apply all_overrides; assumption]).
  all: try (intros h i ov IH (H1 & H2 & H3); destruct ov as [ov|]; cbn [print_item]; constructor; try apply gap_sp; try apply gap1_sp; try (apply lit_print, H1); try (apply inherit_print, H2); apply all_overrides; assumption).
  all: try (intros a H; cbn [print_item]; constructor; apply annot_print, H).
  all: try (intros n h p [_ IH] [[-> | Hn] Hp]; cbn [print_override]; [apply (Ii_start None []) | apply (Ii_define None [])]; try apply gap_sp; try apply method_print; try (apply IH, Hp); try exact Hn; constructor).
  all: try (intros l IH H; cbn [print_override]; apply (Ii_div None []); try apply gap_sp; [constructor | apply all_overrides; assumption]).
  all: try (intros a H; cbn [print_override]; apply (Ii_annotation None []); [constructor | apply annot_print, H]).
Qed.

(** a printed pattern never begins with a keyword followed by an annotation *)
Lemma anf_word s : annotated_name_class_first s -> exists k r, (k = lit "element" \/ k = lit "attribute") /\ p_nc_name s = POk k r /\ exists g t, Gap g /\ r = g ++ lit "[" ++ t.
Proof.
  intros (c & k & g & t & Hk & Hg & ->). exists k, (g ++ lit "[" ++ t). split; [destruct Hk; auto|]. split; [|eauto].
  apply nc_name_ok; [destruct Hk; apply kw_word; cbn; tauto|]. inversion Hg as [|d g' Hd _ | b e g' _ _ _]; subst; [reflexivity| | reflexivity].
  cbn in Hd. destruct Hd as [<- | [<- | [<- | [<- | []]]]]; reflexivity.
Qed.
Lemma anf_other w rest : NCName w -> nohd nc_char rest -> w <> lit "element" -> w <> lit "attribute" -> ~ annotated_name_class_first (w ++ rest).
Proof.
  intros Hw Hr H1 H2 H. apply anf_word in H as (k & r & Hk & H & _). rewrite nc_name_ok in H by assumption. injection H as -> _. destruct Hk; contradiction.
Qed.
Lemma anf_nohd s : nohd nc_start_char s -> ~ annotated_name_class_first s.
Proof. intros Hs H. apply anf_word in H as (k & r & _ & H & _). rewrite nc_name_no in H by assumption. discriminate. Qed.
Lemma anf_colon p x : NCName p -> ~ annotated_name_class_first (p ++ lit ":" ++ x).
Proof.
  intros Hp H. apply anf_word in H as (k & r & _ & H & g & t & Hg & Hr). rewrite nc_name_ok in H; [|exact Hp | reflexivity]. injection H as _ <-.
  inversion Hg as [|d g' Hd _ | b e g' _ _ _]; subst; [discriminate Hr| | discriminate Hr]. injection Hr as <- _. cbn in Hd. decompose [or] Hd; try discriminate; assumption.
Qed.
Definition nchead (c : N) : bool := nc_start_char c || (c =? 92)%N || (c =? 42)%N || (c =? 40)%N.
Lemma name_head n : name_ok n -> starts nchead (print_name n).
Proof.
  destruct n as [i | p l | u l]; cbn [name_ok print_name]; [| |intros []].
  - intros H. apply idkw_print in H. apply IdKw_starts in H. eapply starts_imp; [|exact H]. intros c. unfold idstart, nchead. intros [E | E]%orb_true_iff; rewrite E, ?orb_true_r; reflexivity.
  - intros [Hp _]. apply starts_app. eapply starts_imp; [|apply NCName_starts, Hp]. intros c E. unfold nchead. rewrite E. reflexivity.
Qed.
Lemma nc_head n : forall tight, nc_ok tight n -> starts nchead (print_nc n).
Proof.
  revert n. fix IH 1. intros n tight. destruct n as [nm | [p | u] [e|] | [e|] | a b | a]; cbn [nc_ok print_nc].
  - apply name_head.
  - intros (_ & Hp & _). apply starts_app. eapply starts_imp; [|apply NCName_starts, Hp]. intros c E. unfold nchead. rewrite E. reflexivity.
  - intros Hp. apply starts_app. eapply starts_imp; [|apply NCName_starts, Hp]. intros c E. unfold nchead. rewrite E. reflexivity.
  - intros [].
  - intros [].
  - intros _. do 2 eexists. split; [reflexivity | reflexivity].
  - intros _. do 2 eexists. split; [reflexivity | reflexivity].
  - intros (_ & Ha & _). apply starts_app. eapply IH. exact Ha.
  - intros _. do 2 eexists. split; [reflexivity | reflexivity].
Qed.
Lemma nchead_gap c : nchead c = true -> ~ In c [32; 9; 13; 10; 35; 91]%N.
Proof. intros H Hc. cbn in Hc. decompose [or] Hc; subst; try (vm_compute in H; discriminate); assumption. Qed.
Lemma anf_named c k n tight x : NamedKw c k -> nc_ok tight n -> ~ annotated_name_class_first (k ++ sp ++ print_nc n ++ x).
Proof.
  intros Hk Hn H. apply anf_word in H as (k' & r & _ & H & g & t & Hg & Hr). rewrite nc_name_ok in H; [|destruct Hk; apply kw_word; cbn; tauto | reflexivity]. injection H as _ <-.
  apply nc_head in Hn. destruct Hn as (d & s0 & E0 & Hn). apply nchead_gap in Hn. rewrite E0 in Hr.
  inversion Hg as [|c' g' Hc Hg' E | b e g' _ _ _]; subst; [discriminate Hr| | discriminate Hr]. injection Hr as <- Hr.
  inversion Hg' as [|c' g2 Hc' _ E | b e g2 _ _ _]; subst; injection Hr as Hx _; subst; apply Hn; cbn in *; tauto.
Qed.
Lemma ident_head i rest : Ident i -> nohd nc_char rest -> ~ annotated_name_class_first (i ++ rest).
Proof.
  intros [[Hn Hk] | (k & _ & ->)] Hr.
  - apply anf_other; [assumption | assumption | intros ->; apply Hk; cbn; tauto | intros ->; apply Hk; cbn; tauto].
  - apply anf_nohd. reflexivity.
Qed.
Lemma lit_head l rest : lit_ok l -> ~ annotated_name_class_first (print_lit l ++ rest).
Proof.
  intros H. apply lit_print, Lit_starts in H. apply anf_nohd. destruct H as (c & s & -> & H). cbn. unfold quotec in H.
  apply orb_true_iff in H as [H | H]; apply N.eqb_eq in H as ->; reflexivity.
Qed.
Lemma dt_head d x : dt_ok d -> nohd nc_char x -> ~ annotated_name_class_first (print_dt d ++ x).
Proof.
  destruct d as [| |p l|u l]; cbn [dt_ok print_dt]; intros H Hx.
  - apply anf_other; [apply kw_word; cbn; tauto | exact Hx | discriminate | discriminate].
  - apply anf_other; [apply kw_word; cbn; tauto | exact Hx | discriminate | discriminate].
  - rewrite <- !app_assoc. apply anf_colon, H.
  - destruct H.
Qed.
Lemma params_head ps x : nohd nc_char x -> nohd nc_char (print_params ps ++ x).
Proof. destruct ps; cbn; auto. Qed.
Ltac kwh := apply anf_other; [apply kw_word; cbn; tauto | first [reflexivity | assumption] | discriminate | discriminate].
Lemma pat_head : forall p tight, pat_printable tight p -> forall rest, nohd nc_char rest -> ~ annotated_name_class_first (print_pat p ++ rest).
Proof.
  fix IH 1. intros p tight. destruct p as [nc p|nc p|p|p|i|i| | | |h i|l|p|a b|a b|a b|p|p|p|[d|] v|d ps [e|]]; cbn [pat_printable print_pat]; intros H rest Hr; rewrite <- ?app_assoc.
  - eapply anf_named; [apply Nk_element | apply H].
  - eapply anf_named; [apply Nk_attribute | apply H].
  - kwh.
  - kwh.
  - apply ident_head; [apply H | exact Hr].
  - kwh.
  - kwh.
  - kwh.
  - kwh.
  - kwh.
  - kwh.
  - apply anf_nohd. reflexivity.
  - destruct H as (_ & Ha & _). eapply IH; [exact Ha | reflexivity].
  - destruct H as (_ & Ha & _). eapply IH; [exact Ha | reflexivity].
  - destruct H as (_ & Ha & _). eapply IH; [exact Ha | reflexivity].
  - eapply IH; [exact H | reflexivity].
  - eapply IH; [exact H | reflexivity].
  - eapply IH; [exact H | reflexivity].
  - destruct H as [Hd _]. apply dt_head; [exact Hd | reflexivity].
  - destruct H as [_ Hl]. apply lit_head, Hl.
  - destruct H as [Hd _]. apply dt_head; [exact Hd | apply params_head; reflexivity].
  - destruct H as [Hd _]. apply dt_head; [exact Hd | apply params_head, Hr].
Qed.

Lemma uri_print u : uri_ok u -> UriLit u (print_uri u).
Proof. destruct u; intros H; constructor. apply lit_print, H. Qed.
Lemma prefix_print p : prefix_ok p -> exists i, IdKw i p /\ ik_string i = p.
Proof. intros [H | H]; [exists (IKId p) | exists (IKKw p)]; (split; [constructor; exact H | reflexivity]). Qed.
Lemma decl_print d : decl_ok d -> Decl d (print_decl d).
Proof.
  destruct d as [p u | [p|] u | p l]; intros [H1 H2]; cbn [print_decl].
  - apply prefix_print in H1 as (i & H1 & E). rewrite <- E at 1. constructor; [apply gap1_sp | exact H1 | apply gap_sp | apply gap_sp | apply uri_print, H2].
  - apply prefix_print in H1 as (i & H1 & E). rewrite <- E at 1. constructor; [apply gap1_sp | apply gap1_sp | exact H1 | apply gap_sp | apply gap_sp | apply uri_print, H2].
  - constructor; [apply gap1_sp | apply gap1_sp | apply gap_sp | apply uri_print, H2].
  - apply prefix_print in H1 as (i & H1 & E). rewrite <- E at 1. constructor; [apply gap1_sp | exact H1 | apply gap_sp | apply gap_sp | apply lit_print, H2].
Qed.
Theorem print_text x : Printable x -> SchemaText x (print_schema x).
Proof.
  destruct x as [ds t]. intros [Hd Ht]. cbn [s_decls s_top] in *. unfold print_schema. cbn [s_decls s_top].
  apply (St []); [constructor | | apply gap_lf | intros _; right; discriminate | | apply gap_lf].
  - apply seq_join. eapply Forall_impl; [|exact Hd]. exact decl_print.
  - destruct print_denotes as (HP & HG & _). destruct t as [p | l].
    + apply To_pattern; [apply HP, Ht|]. right. rewrite <- (app_nil_r (print_pat p)). eapply pat_head; [exact Ht | exact I].
    + destruct Ht as [Hn Hl]. apply To_grammar; [exact Hn|]. apply seq_join. eapply Forall_impl; [|exact Hl]. intros g. apply HG.
Qed.
