(** * CompactMain: the statements of PropsCompact, proved; texts that meet their hypotheses. *)
From Coq Require Import String.
From Verif Require Import Base Datatype Syntax.
From Verif Require Import CompactParse CompactTotal CompactText CompactLex CompactReadTop CompactSound CompactPrint CompactNames.

Definition Text (x : schema) (s : str) : Prop := @SchemaText strict_mode x s.
Definition LaxText (x : schema) (s : str) : Prop := @SchemaText lax_mode x s.

Lemma parse_print x : Printable x -> parse_compact (print_schema x) = Parsed x.
Proof. intros H. apply schema_read, print_text, H. Qed.
Lemma unambiguous x y s : Text x s -> Text y s -> x = y.
Proof. intros H1 H2. apply schema_read in H1, H2. congruence. Qed.
Lemma same_schema x s s' : Text x s -> Text x s' -> parse_compact s = parse_compact s'.
Proof. intros H1 H2. apply schema_read in H1, H2. congruence. Qed.

(** ** Names *)
Lemma ncname_of s : p_nc_name s = POk s [] -> NCName s.
Proof. intros H. apply nc_name_inv in H. tauto. Qed.
Definition LF : str := [10%N].
#[local] Existing Instance strict_mode.
Lemma def_read w : Ident w -> parse_compact (w ++ lit " = empty" ++ LF) = Parsed (Schema [] (TGrammar [GDefine w MAssign SEmpty])).
Proof.
  intros H. apply schema_read.
  change (w ++ lit " = empty" ++ LF) with ([] ++ [] ++ [] ++ w ++ (sp ++ lit "=" ++ sp ++ lit "empty") ++ LF). rewrite (app_assoc w).
  apply St; [constructor | constructor | constructor | congruence | | apply gap_lf]. apply To_grammar; [discriminate|]. apply Seq_one.
  apply Gi_define; [exact H | apply gap_sp | constructor | apply gap_sp | apply post_pat, post_prim, Pr_plain; constructor].
Qed.
Lemma ref_read w : Ident w -> no_type_keyword w -> parse_compact (lit "start = " ++ w ++ LF) = Parsed (Schema [] (TGrammar [GDefine (lit "start") MAssign (SIdent w)])).
Proof.
  intros H H'. apply schema_read.
  change (lit "start = " ++ w ++ LF) with ([] ++ [] ++ [] ++ lit "start" ++ sp ++ lit "=" ++ sp ++ w ++ LF).
  replace (lit "start" ++ sp ++ lit "=" ++ sp ++ w ++ LF) with ((lit "start" ++ sp ++ lit "=" ++ sp ++ w) ++ LF) by (rewrite <- !app_assoc; reflexivity).
  apply St; [constructor | constructor | constructor | congruence | | apply gap_lf]. apply To_grammar; [discriminate|]. apply Seq_one.
  apply Gi_start; [apply gap_sp | constructor | apply gap_sp | apply post_pat, post_prim, Pr_ident; assumption].
Qed.
Lemma keyword_not_defined k : In k Keywords -> k <> lit "start" -> parse_compact (k ++ lit " = empty" ++ LF) = ParseError.
Proof.
  intros H Hn. cbn [Keywords map In] in H.
  repeat match type of H with _ \/ _ => destruct H as [<- | H]; [first [vm_compute; reflexivity | exfalso; apply Hn; reflexivity]|] end. destruct H.
Qed.
Lemma keyword_not_reference k : In k Keywords -> forall h, parse_compact (lit "start = " ++ k ++ LF) <> Parsed (Schema [] (TGrammar [GDefine (lit "start") h (SIdent k)])).
Proof.
  intros Hk h H. apply schema_names in H. apply Forall_inv_tail, Forall_inv in H. destruct H as [[_ H3] | (j & _ & E)]; [contradiction|].
  apply kw_word in Hk. destruct Hk as (c & t & E' & Hc & _). rewrite E' in E. injection E as -> _. apply start_char in Hc. discriminate Hc.
Qed.

(** ** Examples *)
Definition lt (s : string) : literal := [lit s].
Ltac nc := apply ncname_of; vm_compute; reflexivity.
Ltac nokw := let H := fresh in intros H; cbn in H; repeat match type of H with _ \/ _ => destruct H as [H | H]; [discriminate H|] end; destruct H.
Ltac ident := left; split; [nc | nokw].
Ltac seg := eexists; apply (Seg_single 34%N); [left; reflexivity | repeat constructor; discriminate].
Ltac litk := split; [discriminate | repeat (constructor; [seg|]); constructor].
Ltac notype := split; intros [? E]; discriminate E.
Ltac printable := repeat match goal with
  | |- _ /\ _ => split
  | |- True => exact I
  | |- NCName _ => nc
  | |- Ident _ => ident
  | |- lit_ok _ => litk
  | |- no_type_keyword _ => notype
  | |- Forall _ [] => constructor
  | |- Forall _ (_ :: _) => constructor
  | |- _ = _ => reflexivity
  | |- _ <> _ => discriminate
  | |- initial_ok _ => unfold initial_ok
  | |- attr_ok _ => unfold attr_ok
  | |- prefix_ok _ => left
  | |- idkw_ok (IKKw _) => unfold idkw_ok
  | |- In _ Keywords => cbn [Keywords map In]; repeat (first [left; reflexivity | right]); fail
  | |- _ = _ \/ Ident _ => first [left; reflexivity | right]
  | |- _ => progress cbn
  end.
(** annotations, name classes, parameters, every operator *)
Definition big : schema := Schema [DDatatypes (lit "d") (lt "http://www.w3.org/2001/XMLSchema-datatypes"); DDefault None (UUri (lt "u"))]
  (TPattern (SElement (CAlt (CParen (CNs (NsPrefix (lit "p")) (Some (CName (NmId (IKId (lit "a"))))))) (CAny None))
    (SInterleavePair (SZeroOrMore (SGroup (SChoicePair (SData (SdC (lit "d") (lit "int"))
        (Some [(Some (Initial [(NmC (lit "a") (lit "b"), lt "c")] [Annot (NmId (IKKw (lit "list"))) [] [inr (lt "x"); inl (Annot (NmId (IKId (lit "y"))) [] [])]]), IKId (lit "minInclusive"), lt "1")]) None)
      (SValue (Some SdToken) [lit "it's"; lit "x"])))) (SData SdString None (Some (SValue None (lt "no"))))))).
Lemma big_printable : Printable big.
Proof. unfold Printable, big. printable. do 10 right. left. reflexivity. Qed.
Definition laid_out : str := lit "start # the root" ++ LF ++ lit "=" ++ LF ++ LF ++ lit "empty".
Lemma laid_out_text : Text (Schema [] (TGrammar [GDefine (lit "start") MAssign SEmpty])) laid_out.
Proof.
  unfold laid_out. change (lit "start # the root" ++ LF ++ lit "=" ++ LF ++ LF ++ lit "empty") with ([] ++ [] ++ [] ++ (lit "start" ++ lit " # the root" ++ LF ++ lit "=" ++ (LF ++ LF) ++ lit "empty") ++ []).
  apply St; [constructor | constructor | constructor | congruence | | constructor]. apply To_grammar; [discriminate|]. apply Seq_one.
  rewrite (app_assoc (lit " # the root")). apply Gi_start.
  - change (lit " # the root" ++ LF) with (32%N :: (lit "#" ++ lit " the root" ++ LF ++ [])). constructor; [left; reflexivity|].
    constructor; [|left; reflexivity | constructor]. repeat constructor; discriminate.
  - constructor.
  - constructor; [cbn; auto|]. apply gap_lf.
  - apply post_pat, post_prim, Pr_plain; constructor.
Qed.
