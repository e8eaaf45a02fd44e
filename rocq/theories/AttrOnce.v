(** * AttrOnce: attributes that occur twice in an element.

    XML (3.1, Unique Att Spec; Namespaces 6.3) has no document with two attributes of one name in an
    element.  The tokenizer (xmlparser) does not look, nor does the validator: what is accepted
    depends on the schema.  A name the schema cannot give to two attributes of one element is never
    accepted twice. *)
From Coq Require Import Permutation String.
From Verif Require Import Base Datatype Store Deriv Events Lang Doc Accept Compile Schema Spec SpecFacts Scope Infoset InfosetProof Main View Condense Examples Verdicts Refuted.
Local Open Scope list_scope.

(** ** Specification *)
Definition same_name (x q : qname) : Prop := uri x = uri q /\ q_local x = q_local q.
(** two attributes named [q] *)
Definition twice (q : qname) (a : list attr) : Prop :=
  exists a1 x a2 y a3, a = a1 ++ x :: a2 ++ y :: a3 /\ same_name (a_name x) q /\ same_name (a_name y) q.
(** no element of the tree has two attributes named [q] *)
Inductive once_in (q : qname) : item -> Prop :=
| oi_txt s : once_in q (Txt s)
| oi_elm nm a k : ~ twice q a -> (forall i, In i k -> once_in q i) -> once_in q (Elm nm a k).

Section Once.
Variable defs : list mpat.
Variable q : qname.
(** an attribute named [q] can match (part of) the pattern, not inside an element of it *)
Inductive takes : mpat -> Prop :=
| t_attr nc p : in_class nc q -> takes (MAttribute nc p)
| t_choice l x : In x l -> takes x -> takes (MChoice l)
| t_group l x : In x l -> takes x -> takes (MGroup l)
| t_inter l x : In x l -> takes x -> takes (MInterleave l)
| t_mixed p : takes p -> takes (MMixed p)
| t_optional p : takes p -> takes (MOptional p)
| t_zero p : takes p -> takes (MZeroOrMore p)
| t_one p : takes p -> takes (MOneOrMore p)
| t_ref r X : deref defs r = Some X -> takes X -> takes (MRef r).
(** [within y x]: [y] is [x] or occurs in it, in its elements and the definitions it refers to *)
Inductive within (y : mpat) : mpat -> Prop :=
| w_here : within y y
| w_choice l x : In x l -> within y x -> within y (MChoice l)
| w_group l x : In x l -> within y x -> within y (MGroup l)
| w_inter l x : In x l -> within y x -> within y (MInterleave l)
| w_mixed p : within y p -> within y (MMixed p)
| w_optional p : within y p -> within y (MOptional p)
| w_zero p : within y p -> within y (MZeroOrMore p)
| w_one p : within y p -> within y (MOneOrMore p)
| w_elem nc p : within y p -> within y (MElement nc p)
| w_ref r X : deref defs r = Some X -> within y X -> within y (MRef r).
(** no group or interleave has two members that take [q], and nothing that takes [q] is repeated *)
Definition single (start : mpat) : Prop := forall y, within y start ->
  match y with
  | MGroup l | MInterleave l => forall l1 x l2 z l3, l = l1 ++ x :: l2 ++ z :: l3 -> takes x -> takes z -> False
  | MOneOrMore p | MZeroOrMore p => ~ takes p
  | _ => True
  end.
End Once.
(** the source: no element has two unprefixed attributes [l] *)
Inductive written_once (l : str) : xnode -> Prop :=
| wo_text st r : written_once l (XText st r)
| wo_cdata s : written_once l (XCdata s)
| wo_comment s : written_once l (XComment s)
| wo_pi s : written_once l (XPI s)
| wo_elem p n a sc kids :
    (forall a1 v a2 w a3, a <> a1 ++ ([], l, v) :: a2 ++ ([], l, w) :: a3) ->
    (forall k, In k kids -> written_once l k) -> written_once l (XElem p n a sc kids).

(** ** Proof *)
Definition is_q (q : qname) (x : attr) : bool := str_eqb (uri (a_name x)) (uri q) && str_eqb (q_local (a_name x)) (q_local q).
Definition cnt (q : qname) (a : list attr) : nat := List.length (filter (is_q q) a).
Lemma is_q_iff q x : is_q q x = true <-> same_name (a_name x) q.
Proof. unfold is_q, same_name. rewrite Bool.andb_true_iff, !str_eqb_eq. reflexivity. Qed.
Lemma cnt_app q a b : cnt q (a ++ b) = cnt q a + cnt q b.
Proof. unfold cnt. rewrite filter_app, app_length. reflexivity. Qed.
Lemma cnt_perm q a b : Permutation a b -> cnt q a = cnt q b.
Proof.
  unfold cnt. induction 1 as [|x a b _ IH|x y a|a b c _ IH1 _ IH2]; cbn; [reflexivity| | |congruence].
  - destruct (is_q q x); cbn; congruence.
  - destruct (is_q q x), (is_q q y); reflexivity.
Qed.
Lemma cnt_once q a : cnt q a <= 1 -> ~ twice q a.
Proof.
  intros H (a1 & x & a2 & y & a3 & -> & Hx & Hy). apply is_q_iff in Hx, Hy.
  rewrite cnt_app in H. change (x :: a2 ++ y :: a3) with ([x] ++ a2 ++ [y] ++ a3) in H. rewrite !cnt_app in H.
  assert (cnt q [x] = 1) by (unfold cnt; cbn; rewrite Hx; reflexivity).
  assert (cnt q [y] = 1) by (unfold cnt; cbn; rewrite Hy; reflexivity). lia.
Qed.
Lemma same_class x q (H : same_name x q) : forall nc, in_class nc x <-> in_class nc q.
Proof.
  destruct H as [Hu Hl]. fix IH 1. intros [ns n|ns o|o|a b]; cbn.
  - rewrite Hu, Hl. reflexivity.
  - destruct o as [e|]; [pose proof (IH e) as He|]; rewrite Hu; [rewrite He|]; reflexivity.
  - destruct o as [e|]; [rewrite (IH e)|]; reflexivity.
  - rewrite (IH a), (IH b). reflexivity.
Qed.

Section Proof.
Variable sp : N -> bool.
Variable O : oracles.
Variable defs : list mpat.
Variable w3 : bool.
Variable q : qname.
Notation takes := (takes defs q).
Notation single := (single defs q).
Notation within := (within defs).

Lemma single_via p x : (forall y, within y x -> within y p) -> single p -> single x.
Proof. intros H HS y Hy. exact (HS y (H y Hy)). Qed.
Lemma single_tail_g x y l : single (MGroup (x :: y :: l)) -> single (MGroup (y :: l)).
Proof.
  intros HS z Hz. inversion Hz as [| |l' u Hin Hu| | | | | | |]; subst.
  - intros l1 u l2 v l3 E. apply (HS (MGroup (x :: y :: l)) (w_here _ _) (x :: l1) u l2 v l3). cbn. rewrite E. reflexivity.
  - apply HS. eapply w_group; [right; exact Hin | exact Hu].
Qed.
Lemma single_tail_i x y l : single (MInterleave (x :: y :: l)) -> single (MInterleave (y :: l)).
Proof.
  intros HS z Hz. inversion Hz as [| | |l' u Hin Hu| | | | | |]; subst.
  - intros l1 u l2 v l3 E. apply (HS (MInterleave (x :: y :: l)) (w_here _ _) (x :: l1) u l2 v l3). cbn. rewrite E. reflexivity.
  - apply HS. eapply w_inter; [right; exact Hin | exact Hu].
Qed.
Definition fine (a : list attr) (m : list item) (p : mpat) : Prop :=
  single p -> cnt q a <= 1 /\ (cnt q a > 0 -> takes p) /\ (forall i, In i m -> once_in q i).
Lemma merge_in : forall (m1 m2 m : list item) i, merge m1 m2 m -> In i m -> In i m1 \/ In i m2.
Proof. intros m1 m2 m i H. induction H; cbn; intuition. Qed.
Lemma blank_once m i : ws m -> In i m -> once_in q i.
Proof. intros [->|(s & -> & _)]; [intros []|]. intros [<-|[]]. constructor. Qed.

Lemma all_fine : (forall a m p, Mg sp O defs w3 a m p -> fine a m p) /\ (forall a m p, Wg sp O defs w3 a m p -> fine a m p).
Proof.
  apply MW_ind; unfold fine.
  - intros x l a m Hin _ IH HS. destruct (IH (single_via _ _ (fun y Hy => w_choice _ _ _ _ Hin Hy) HS)) as (H1 & H2 & H3).
    split; [exact H1|]. split; [intros H; eapply t_choice; eauto | exact H3].
  - intros x a m _ IH HS. destruct (IH (single_via _ _ (fun y Hy => w_group _ _ [x] _ (or_introl eq_refl) Hy) HS)) as (H1 & H2 & H3).
    split; [exact H1|]. split; [intros H; eapply t_group; [left; reflexivity | auto] | exact H3].
  - intros x y l a1 a2 a m1 m2 HP _ IH1 _ IH2 HS.
    destruct (IH1 (single_via _ _ (fun z Hz => w_group _ _ (x :: y :: l) _ (or_introl eq_refl) Hz) HS)) as (H1 & H2 & H3).
    destruct (IH2 (single_tail_g _ _ _ HS)) as (K1 & K2 & K3).
    rewrite (cnt_perm q _ _ HP), cnt_app.
    assert (HX : cnt q a1 > 0 -> cnt q a2 > 0 -> False).
    { intros A B. specialize (H2 A). specialize (K2 B). inversion K2 as [| |l' z Hin Hz| | | | | |]; subst. apply in_split in Hin as (l1 & l2 & E).
      exact (HS _ (w_here _ _) [] x l1 z l2 (f_equal (cons x) E) H2 Hz). }
    split; [lia|]. split.
    + intros A. destruct (Nat.eq_dec (cnt q a1) 0) as [E|E].
      * specialize (K2 ltac:(lia)). inversion K2 as [| |l' z Hin Hz| | | | | |]; subst. eapply t_group; [right; exact Hin | exact Hz].
      * eapply t_group; [left; reflexivity | apply H2; lia].
    + intros i Hi. apply in_app_iff in Hi as [Hi|Hi]; auto.
  - intros x a m _ IH HS. destruct (IH (single_via _ _ (fun y Hy => w_inter _ _ [x] _ (or_introl eq_refl) Hy) HS)) as (H1 & H2 & H3).
    split; [exact H1|]. split; [intros H; eapply t_inter; [left; reflexivity | auto] | exact H3].
  - intros x y l a1 a2 a m1 m2 m HP HM _ IH1 _ IH2 HS.
    destruct (IH1 (single_via _ _ (fun z Hz => w_inter _ _ (x :: y :: l) _ (or_introl eq_refl) Hz) HS)) as (H1 & H2 & H3).
    destruct (IH2 (single_tail_i _ _ _ HS)) as (K1 & K2 & K3).
    rewrite (cnt_perm q _ _ HP), cnt_app.
    assert (HX : cnt q a1 > 0 -> cnt q a2 > 0 -> False).
    { intros A B. specialize (H2 A). specialize (K2 B). inversion K2 as [| | |l' z Hin Hz| | | | |]; subst. apply in_split in Hin as (l1 & l2 & E).
      exact (HS _ (w_here _ _) [] x l1 z l2 (f_equal (cons x) E) H2 Hz). }
    split; [lia|]. split.
    + intros A. destruct (Nat.eq_dec (cnt q a1) 0) as [E|E].
      * specialize (K2 ltac:(lia)). inversion K2 as [| | |l' z Hin Hz| | | | |]; subst. eapply t_inter; [right; exact Hin | exact Hz].
      * eapply t_inter; [left; reflexivity | apply H2; lia].
    + intros i Hi. destruct (merge_in _ _ _ _ HM Hi); auto.
  - intros p a m _ IH HS.
    destruct IH as (H1 & H2 & H3).
    { intros y Hy. inversion Hy as [| | |l' u Hin Hu| | | | | |]; subst.
      - intros l1 u l2 v l3 E Tu Tv. destruct l1 as [|u1 l1]; [|destruct l1 as [|u2 l1]; [|destruct l1; discriminate E]].
        + injection E as <- E. destruct l2 as [|v1 l2]; [|destruct l2; discriminate E]. injection E as <- <-. inversion Tv.
        + injection E as <- <- E. destruct l2; discriminate E.
      - destruct Hin as [<-|[<-|[]]]; [apply HS; apply w_mixed; exact Hu|]. inversion Hu; subst. exact I. }
    split; [exact H1|]. split; [|exact H3]. intros A. specialize (H2 A). inversion H2 as [| | |l' z Hin Hz| | | | |]; subst.
    destruct Hin as [<-|[<-|[]]]; [apply t_mixed; exact Hz | inversion Hz].
  - intros p a m _ IH HS. destruct IH as (H1 & H2 & H3).
    { intros y Hy. inversion Hy as [|l' u Hin Hu| | | | | | | |]; subst; [exact I|].
      destruct Hin as [<-|[<-|[]]]; [apply HS, w_optional; exact Hu|]. inversion Hu; subst; exact I. }
    split; [exact H1|]. split; [|exact H3]. intros A. specialize (H2 A). inversion H2 as [|l' z Hin Hz| | | | | | |]; subst.
    destruct Hin as [<-|[<-|[]]]; [apply t_optional; exact Hz | inversion Hz].
  - intros p a m _ IH HS. destruct IH as (H1 & H2 & H3).
    { intros y Hy. inversion Hy as [|l' u Hin Hu| | | | | | | |]; subst; [exact I|].
      destruct Hin as [<-|[<-|[]]]; [|inversion Hu; subst; exact I].
      inversion Hu as [| | | | | | |? Hv| |]; subst; [exact (HS _ (w_here _ _)) | apply HS, w_zero; exact Hv]. }
    split; [exact H1|]. split; [|exact H3]. intros A. specialize (H2 A). inversion H2 as [|l' z Hin Hz| | | | | | |]; subst.
    destruct Hin as [<-|[<-|[]]]; [|inversion Hz]. inversion Hz; subst. apply t_zero; assumption.
  - intros p a m _ IH HS. destruct (IH (single_via _ _ (fun y Hy => w_one _ _ _ Hy) HS)) as (H1 & H2 & H3).
    split; [exact H1|]. split; [intros H; apply t_one; auto | exact H3].
  - intros p a1 a2 a m1 m2 HP _ IH1 _ IH2 HS.
    destruct (IH1 (single_via _ _ (fun y Hy => w_one _ _ _ Hy) HS)) as (H1 & H2 & H3). destruct (IH2 HS) as (K1 & K2 & K3).
    pose proof (HS _ (w_here _ _)) as HN; cbn in HN. rewrite (cnt_perm q _ _ HP), cnt_app.
    assert (E1 : cnt q a1 = 0) by (destruct (Nat.eq_dec (cnt q a1) 0) as [E|E]; [exact E | destruct HN; apply H2; lia]).
    assert (E2 : cnt q a2 = 0).
    { destruct (Nat.eq_dec (cnt q a2) 0) as [E|E]; [exact E|]. specialize (K2 ltac:(lia)). inversion K2; subst. contradiction. }
    rewrite E1, E2. split; [cbn; lia|]. split; [cbn; lia|]. intros i Hi. apply in_app_iff in Hi as [Hi|Hi]; auto.
  - intros _. split; [cbn; lia|]. split; [cbn; lia | intros i []].
  - intros m HF _. split; [cbn; lia|]. split; [cbn; lia|]. intros i Hi. rewrite Forall_forall in HF. destruct (HF i Hi) as (s & ->). constructor.
  - intros nc p x Hc _ _ _. split; [unfold cnt; cbn; destruct (is_q q x); cbn; lia|]. split; [|intros i []].
    intros A. unfold cnt in A; cbn in A. destruct (is_q q x) eqn:E; [|cbn in A; lia]. apply is_q_iff in E. apply t_attr, (same_class _ _ E); exact Hc.
  - intros nc p nm a k ws1 ws2 Hc _ _ IH Hw1 Hw2 HS. destruct (IH (single_via _ _ (fun y Hy => w_elem _ _ nc _ Hy) HS)) as (H1 & H2 & H3).
    split; [cbn; lia|]. split; [cbn; lia|]. intros i Hi. apply in_app_iff in Hi as [Hi|[<-|Hi]]; [exact (blank_once _ _ Hw1 Hi) | | exact (blank_once _ _ Hw2 Hi)].
    constructor; [apply cnt_once; exact H1 | exact H3].
  - intros r X a m Hd _ IH HS. destruct (IH (single_via _ _ (fun y Hy => w_ref _ _ _ _ Hd Hy) HS)) as (H1 & H2 & H3).
    split; [exact H1|]. split; [intros H; eapply t_ref; eauto | exact H3].
  - intros d s _ _. split; [cbn; lia|]. split; [cbn; lia|]. intros i [<-|[]]. constructor.
  - intros d e s _ _ _. split; [cbn; lia|]. split; [cbn; lia|]. intros i [<-|[]]. constructor.
  - intros v s _ _. split; [cbn; lia|]. split; [cbn; lia|]. intros i [<-|[]]. constructor.
  - intros p s _ _ _. split; [cbn; lia|]. split; [cbn; lia|]. intros i [<-|[]]. constructor.
  - intros a m p _ IH. exact IH.
  - intros a s p _ _ IH HS. destruct (IH HS) as (H1 & H2 & _). split; [exact H1|]. split; [exact H2|]. intros i [<-|[]]. constructor.
  - intros a p _ _ IH HS. destruct (IH HS) as (H1 & H2 & _). split; [exact H1|]. split; [exact H2|]. intros i [].
Qed.
Lemma valid_once start root : single start -> Mg sp O defs w3 [] [root] start -> once_in q root.
Proof. intros HS H. apply (proj1 all_fine _ _ _ H HS). left; reflexivity. Qed.
End Proof.

(** ** Back to what was read *)
Lemma joined_keeps : forall k nm a kk, In (Elm nm a kk) k -> In (Elm nm a kk) (joined k).
Proof.
  induction k as [|[s|n b c] k IH]; intros nm a kk; [intros []| |].
  - intros [H|H]; [discriminate H|]. specialize (IH _ _ _ H). cbn [joined]. destruct (joined k) as [|[s'|n' a' k'] r].
    + destruct IH.
    + destruct IH as [E|IH]; [discriminate E|]. destruct s; right; exact IH.
    + destruct s; [exact IH | right; exact IH].
  - intros [H|H]; cbn [joined]; [left; exact H | right; exact (IH _ _ _ H)].
Qed.
Lemma taken_keeps k1 k2 nm a kk : taken_as k1 k2 -> In (Elm nm a kk) k1 -> In (Elm nm a kk) k2.
Proof.
  intros [|l1 s l2 E _|ss E _] H; [apply joined_keeps; exact H| |]; subst; apply in_map_iff in H as (? & H & _); discriminate H.
Qed.
Lemma condensed_once q : forall i j, condensed i j -> once_in q j -> once_in q i.
Proof.
  fix IH 1. intros [s|nm a k] j H Ho; [constructor|]. inversion H as [|? ? ? k1 k2 HF HT]; subst. inversion Ho as [|? ? ? Hn Hk]; subst.
  constructor; [exact Hn|].
  assert (HA : forall j, In j k1 -> once_in q j).
  { intros [s|n b c] Hj; [constructor|]. apply Hk. eapply taken_keeps; eassumption. }
  clear - IH HF HA. revert k1 HF HA. induction k as [|i k IHk]; intros k1 HF HA; [intros ? []|].
  inversion HF as [|? j ? k1' Hij HF']; subst. intros i' [<-|Hi']; [exact (IH _ _ Hij (HA _ (or_introl eq_refl)))|].
  exact (IHk _ HF' (fun j' Hj' => HA j' (or_intror Hj')) i' Hi').
Qed.
Theorem accepted_once O defs start q : rng_schema defs start -> in_limits defs start -> single defs q start ->
  forall d, doc_wf d -> accepts O defs start (doc_tokens d) -> exists read, Reading d read /\ once_in q read.
Proof.
  intros HR HL HS d Hw HA. destruct (accepted_condensed_uni O defs start HR HL d Hw HA) as (read & root & H1 & H2 & H3).
  exists read. split; [exact H1|]. eapply condensed_once; [exact H2|]. eapply valid_once; eassumption.
Qed.

(** ** And to the source *)
Lemma RNode_written ents l : l <> lit "xmlns"%string ->
  (forall s x is s', RNode ents s x is s' -> (forall i, In i is -> once_in (QName None l) i) -> written_once l x) /\
  (forall s xs is s', RNodes ents s xs is s' -> (forall i, In i is -> once_in (QName None l) i) -> forall x, In x xs -> written_once l x).
Proof.
  intros Hl. assert (HO : forall v, match ns_decl ([], l, v) with Some _ => false | None => true end = true).
  { intros v. unfold ns_decl. change (str_eqb [] (lit "xmlns"%string)) with false. change (str_eqb [] []) with true. destruct (str_eqb l (lit "xmlns")) eqn:E; [|reflexivity]. apply str_eqb_eq in E. contradiction. }
  apply RNode_ind2; [intros; constructor | intros; constructor | intros; constructor | intros; constructor | | |].
  - intros s p n a sc kids u atts ks s' _ H1 _ IH Hi. specialize (Hi _ (or_introl eq_refl)). inversion Hi as [|? ? ? Hn Hk]; subst.
    constructor; [|exact (IH Hk)]. intros a1 v a2 w a3 ->. apply Hn.
    unfold ordinary in H1. rewrite filter_app in H1. cbn [filter] in H1. rewrite HO, filter_app in H1. cbn [filter] in H1. rewrite HO in H1.
    apply Forall2_app_inv_l in H1 as (b1 & b2 & _ & H1 & ->). inversion H1 as [|? y ? b3 Hy H1']; subst.
    apply Forall2_app_inv_l in H1' as (b4 & b5 & _ & H2 & ->). inversion H2 as [|? z ? b6 Hz _]; subst.
    exists b1, y, b4, z, b6. split; [reflexivity|].
    inversion Hy as [? ? ? u1 Hu1]; subst. inversion Hu1; subst. inversion Hz as [? ? ? u2 Hu2]; subst. inversion Hu2; subst. repeat split.
  - intros s _ x [].
  - intros s x xs i is s1 s2 _ IH1 _ IH2 Hi z [<-|Hz]; [apply IH1 | apply IH2; [|exact Hz]]; intros j Hj; apply Hi, in_app_iff; auto.
Qed.
Theorem accepted_written_once O defs start l : rng_schema defs start -> in_limits defs start -> single defs (QName None l) start -> l <> L "xmlns" ->
  forall d, doc_wf d -> accepts O defs start (doc_tokens d) -> written_once l (d_root d).
Proof.
  intros HR HL HS Hl d Hw HA. destruct (accepted_once O defs start _ HR HL HS d Hw HA) as (read & (s & HN) & Ho).
  eapply (proj1 (RNode_written _ l Hl)); [exact HN|]. intros i [<-|[]]. exact Ho.
Qed.

(** ** Examples: element e { attribute id { text }, attribute * - id { text }* }, [<e id="1" x="1" x="2"/>] *)
Definition star_schema : mpat :=
  MElement (nm "e") (MGroup [MAttribute (nm "id") MText; MZeroOrMore (MAttribute (NAnyName (Some (nm "id"))) MText)]).
Definition star_doc : xdoc := XDoc [] (XElem [] (L "e") [([], L "id", L "1"); ([], L "x", L "1"); ([], L "x", L "2")] true []) [].
Lemma star_rng : rng_schema [] star_schema.
Proof.
  constructor; [apply no_defs | | apply St_elem]. cbn. repeat split; try discriminate; [apply Sa_attr|].
  apply CT_NA, CT_EN, CT_gr; [discriminate | apply CT_attr, CT_NA, CT_text | apply CT_gr1, CT_zero; [discriminate | apply CT_attr, CT_NA, CT_text]].
Qed.
Lemma star_lim : in_limits [] star_schema.
Proof. constructor; [apply no_defs | | exact no_defs_alias]. cbn. repeat split; try apply no_defs_good. left; apply no_defs_good. Qed.
Lemma star_wf : doc_wf star_doc.
Proof. unfold doc_wf; cbn; repeat split; constructor. Qed.
Lemma star_accepts O : accepts O [] star_schema (doc_tokens star_doc).
Proof. eexists. settle_with 40. Qed.
Definition id_name : qname := QName None (L "id").
Lemma star_id : ~ takes [] id_name (MZeroOrMore (MAttribute (NAnyName (Some (nm "id"))) MText)).
Proof. intros H. inversion H as [| | | | | |? H1| |]; subst. inversion H1 as [? ? H2| | | | | | | |]; subst. apply H2. split; reflexivity. Qed.
Lemma star_single : single [] id_name star_schema.
Proof.
  intros y Hy. inversion Hy as [| | | | | | | |? ? H1|]; subst; [exact I|].
  inversion H1 as [| |l' u Hin Hu| | | | | | |]; subst.
  - intros l1 x l2 z l3 E T1 T2. destruct l1 as [|? l1]; [|destruct l1 as [|? l1]; [|destruct l1; discriminate E]].
    + injection E as <- E. destruct l2 as [|? l2]; [|destruct l2; discriminate E]. injection E as <- <-. exact (star_id T2).
    + injection E as <- <- E. destruct l2; discriminate E.
  - destruct Hin as [<-|[<-|[]]].
    + inversion Hu; subst; exact I.
    + inversion Hu as [| | | | | |? Hv| | |]; subst; [|inversion Hv; subst; exact I].
      intros H. apply star_id, t_zero, H.
Qed.
Lemma star_twice : ~ written_once (L "x") (d_root star_doc).
Proof. intros H. inversion H as [| | | |? ? ? ? ? Hn _]; subst. exact (Hn [([], L "id", L "1")] (L "1") [] (L "2") [] eq_refl). Qed.
Theorem accepted_twice : exists start d l, rng_schema [] start /\ in_limits [] start /\ doc_wf d /\ l <> L "xmlns" /\
  ~ written_once l (d_root d) /\ forall O, accepts O [] start (doc_tokens d).
Proof.
  exists star_schema, star_doc, (L "x"). split; [exact star_rng|]. split; [exact star_lim|]. split; [exact star_wf|]. split; [discriminate|].
  split; [exact star_twice | exact star_accepts].
Qed.
