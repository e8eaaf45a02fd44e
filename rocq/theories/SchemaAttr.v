(** * SchemaAttr: every pattern written in the files read has been compiled; no element stands inside an attribute (C57). *)
From Coq Require Import String.
From Verif Require Import Base Datatype Facets Store Lang Compile Syntax SchemaCompile SourceSpec SourceCompile SchemaSpec SchemaVisit.

Section Attr.
Variable O : oracles.
Variable C : coracles.
Variable fs : filesys.

Section Rec.
Variable rp : ctx -> spat -> CM mpat.
Variable ri : ctx -> list gcontent -> CM unit.
Notation compile_pattern := (compile_pattern O C fs rp ri).
Notation compile_content := (compile_content O C fs rp ri).
Notation compile_override := (compile_override O C fs rp ri).
(** [q] has been compiled, in some context *)
Definition Seen (q : spat) : Prop := exists c st X st', compile_pattern c q st = fok (X, st').

Lemma child_seen c p st X st' q : compile_pattern c p st = fok (X, st') -> child q p ->
  exists c' st0 Y st1, compile_pattern c' q st0 = fok (Y, st1) /\ (parent_attribute c = true -> parent_attribute c' = true) /\ ((exists nc, p = SAttribute nc q) -> parent_attribute c' = true).
Proof.
  intros H Hc. destruct Hc; cbn [SchemaCompile.compile_pattern] in H;
    try (cinv H; eexists c, _, _, _; split; [eassumption|]; split; [auto | intros [? K]; discriminate K]).
  - cinv H. cinv H. unfold new_element in E0. destruct (parent_attribute c) eqn:Ep; [cbad E0|]. cret E0. cinv H. eexists (XElement c), _, _, _. split; [exact E0|]. split; [congruence | intros [? K]; discriminate K].
  - cinv H. cinv H. eexists (XAttribute c), _, _, _. split; [exact E0|]. split; reflexivity.
  - eexists c, _, _, _. split; [eassumption|]. split; [auto | intros [? K]; discriminate K].
  - cinv H. cinv H. eexists c, _, _, _. split; [eassumption|]. split; [auto | intros [? K]; discriminate K].
  - cinv H. cinv H. eexists c, _, _, _. split; [eassumption|]. split; [auto | intros [? K]; discriminate K].
  - cinv H. cinv H. eexists c, _, _, _. split; [eassumption|]. split; [auto | intros [? K]; discriminate K].
  - cinv H. cinv H. cinv H. cinv E1. eexists c, _, _, _. split; [eassumption|]. split; [auto | intros [? K]; discriminate K].
Qed.
Lemma citer_in {A} (F : A -> CM unit) l x : In x l -> forall st st', citer F l st = fok (tt, st') -> exists st0 st1, F x st0 = fok (tt, st1).
Proof.
  induction l as [|y l IH]; intros Hin st st' H; [destruct Hin|]. cbn [citer] in H. cinv H. destruct x0. destruct Hin as [->|Hin]; eauto.
Qed.
Lemma part_attr q p : part q p -> forall c st X st', compile_pattern c p st = fok (X, st') -> parent_attribute c = true -> forall nc x, q <> SElement nc x.
Proof.
  induction 1 as [|p p' Hc _ IH]; intros c st X st' H Hp nc x.
  - intros ->. cbn [SchemaCompile.compile_pattern] in H. cinv H. cinv H. unfold new_element in E0. rewrite Hp in E0. cbad E0.
  - destruct (child_seen _ _ _ _ _ _ H Hc) as (c' & st0 & Y & st1 & H' & K & _). eapply IH; [exact H' | auto].
Qed.
Lemma seen_attr nc p : Seen (SAttribute nc p) -> forall nc' x, ~ part (SElement nc' x) p.
Proof.
  intros (c & st & X & st' & H) nc' x K. destruct (child_seen _ _ _ _ _ p H (Ch_attribute _ _)) as (c' & st0 & Y & st1 & H' & _ & Ka).
  eapply part_attr; [exact K | exact H' | apply Ka; eauto | reflexivity].
Qed.

Lemma occurs_seen q :
  (forall g, occurs q g -> forall c st st', compile_content c g st = fok (tt, st') -> Seen q).
Proof.
  fix IH 2.
  assert (IHi : forall p, occurs_in q p -> forall c st X st', compile_pattern c p st = fok (X, st') -> Seen q).
  { fix IHi 2. intros p Hp c st X st' H. destruct Hp as [|p p' Hc Hp|l g Hin Hg].
    - exists c, st, X, st'. exact H.
    - destruct (child_seen _ _ _ _ _ _ H Hc) as (c' & st0 & Y & st1 & H' & _). exact (IHi p' Hp _ _ _ _ H').
    - cbn [SchemaCompile.compile_pattern] in H. cinv H. cinv H. destruct x0. destruct (citer_in _ _ _ Hin _ _ E0) as (st2 & st3 & K). exact (IH g Hg _ _ _ K). }
  intros g Hg c st st' H. destruct Hg as [n how p Hp|g l Hin Hg|h inh l n how p Hin Hp].
  - cbn [SchemaCompile.compile_content] in H. cinv H. exact (IHi p Hp _ _ _ _ E).
  - cbn [SchemaCompile.compile_content] in H. destruct (citer_in _ _ _ Hin _ _ H) as (st2 & st3 & K). exact (IH g Hg _ _ _ K).
  - cbn [SchemaCompile.compile_content] in H. cinv H. cinv H. cinv H. cinv H. cinv H. destruct x3. destruct (citer_in _ _ _ Hin _ _ E3) as (st6 & st7 & K). apply cmap_err_ok in K.
    cbn [SchemaCompile.compile_override] in K. cinv K. exact (IHi p Hp _ _ _ _ E4).
Qed.
Lemma occurs_in_seen q p : occurs_in q p -> forall c st X st', compile_pattern c p st = fok (X, st') -> Seen q.
Proof.
  induction 1 as [|p p' Hc _ IH|l g Hin Hg]; intros c st X st' H.
  - exists c, st, X, st'. exact H.
  - destruct (child_seen _ _ _ _ _ _ H Hc) as (c' & st0 & Y & st1 & H' & _). exact (IH _ _ _ _ H').
  - cbn [SchemaCompile.compile_pattern] in H. cinv H. cinv H. destruct x0. destruct (citer_in _ _ _ Hin _ _ E0) as (st2 & st3 & K). exact (occurs_seen q g Hg _ _ _ K).
Qed.
Lemma contents_seen q c l st st' g : citer (compile_content c) l st = fok (tt, st') -> In g l -> occurs q g -> Seen q.
Proof. intros H Hin Hg. destruct (citer_in _ _ _ Hin _ _ H) as (st2 & st3 & K). exact (occurs_seen q g Hg _ _ _ K). Qed.
End Rec.

Definition SeenAt (d : nat) (q : spat) : Prop := Seen (fst (nested O C fs d)) (snd (nested O C fs d)) q.
Lemma done_seen d f s q : Done O C fs d f -> fs f = inl s -> file_occurs q s -> (forall l, q <> SGrammar l) -> exists d', SeenAt d' q.
Proof.
  intros (s' & l & c & st & st' & Hs & Hc & Hf & H) Hs' Hq Hng. assert (s' = s) by congruence. subst s'. destruct d as [|d]; [cbn in H; cbad H|]. exists d. cbn [nested] in H. unfold SeenAt.
  destruct (nested O C fs d) as [rp ri]. cbn [fst snd] in *. destruct Hc as [ds l|ds l]; inversion Hq; subst.
  - eapply contents_seen; eassumption.
  - match goal with K : occurs_in _ (SGrammar _) |- _ => inversion K as [|? ? Hch|]; subst end.
    + exfalso; eapply Hng; reflexivity.
    + inversion Hch.
    + eapply contents_seen; eassumption.
Qed.
Lemma root_seen d name r st s q : compile_grammar O C fs d name = fok (r, st) -> fs name = inl s -> file_occurs q s -> exists d', SeenAt d' q.
Proof.
  intros H Hs Hq. unfold compile_grammar in H. cinv H. apply get_schema_ok in E. destruct E as (Es & _). assert (x = s) by congruence. subst x. exists d. unfold SeenAt.
  cinv H. unfold new_root in E. cinv E. cret E.
  destruct (nested O C fs d) as [rp ri] eqn:En. cbn [fst snd]. cinv H. unfold compile_schema_with in E. cinv E. apply declarations_ok in E1; [|exact I]. destruct E1 as [-> (ns & dt & -> & _)]. cbn [with_decls] in *.
  inversion Hq; subst; cbn [s_top] in *.
  - cinv E. destruct x1. eapply contents_seen; eassumption.
  - cbn [is_include] in E. cinv E. eapply occurs_in_seen; eassumption.
Qed.
(** every pattern written in a file that is read has been compiled *)
Lemma all_seen d name r st : compile_grammar O C fs d name = fok (r, st) ->
  forall m f s q, Chain fs m name f -> fs f = inl s -> file_occurs q s -> (forall l, q <> SGrammar l) -> exists d', SeenAt d' q.
Proof.
  intros H m f s q Hm Hf Hq Hng. destruct (root_sane O C fs _ _ _ _ H) as (s0 & Hs & HS).
  assert (K : forall k a b, Chain fs k a b -> forall d0 sa, fs a = inl sa -> Sane O C fs d0 a sa -> a = b \/ exists d', Done O C fs d' b).
  { induction 1 as [a|k a a1 b (sx & h & Hsx & Hi & Hr) HC IH]; intros d0 sa Ha HSa; [left; reflexivity|].
    assert (sx = sa) by congruence. subst sx. destruct HSa as [_ HSa]. pose proof (HSa _ _ Hi Hr) as HD. right.
    destruct (Done_sane O C fs _ _ HD) as (d1 & s1 & -> & Hs1 & HS1). destruct (IH _ _ Hs1 HS1) as [<-|Hd]; [eauto | exact Hd]. }
  destruct (K _ _ _ Hm _ _ Hs HS) as [Heq|[d' Hd]]; [subst f|].
  - exact (root_seen _ _ _ _ _ _ H Hf Hq).
  - exact (done_seen _ _ _ _ Hd Hf Hq Hng).
Qed.
(** C57: no element inside an attribute *)
Theorem no_element_in_attribute d name r st : compile_grammar O C fs d name = fok (r, st) ->
  forall m f s, Chain fs m name f -> fs f = inl s -> forall nc p, file_occurs (SAttribute nc p) s -> forall nc' x, ~ part (SElement nc' x) p.
Proof.
  intros H m f s Hm Hf nc p Hq. destruct (all_seen _ _ _ _ H _ _ _ _ Hm Hf Hq) as [d' Hd]; [discriminate|]. eapply seen_attr; exact Hd.
Qed.
End Attr.
