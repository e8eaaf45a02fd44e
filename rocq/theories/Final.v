(** * Final: the store after compilation is well formed (validator lib.rs:532-616). *)
From Verif Require Import Base Datatype Store Deriv Events Lang LangFacts Wp Tail Compile Schema CompileProof.
Open Scope monad_scope.

Section FP.
Variable O : oracles.
Variable allowed : panic -> Prop.
Variable defs : list mpat.
Variable T : nameclass -> ctype.
Notation body := (body defs).
Notation Nul := (Nul defs).
Notation good := (good defs).
Notation more_ok := (more_ok defs).
Notation SOK := (SOK O allowed defs T).
Notation TYP := (TYP defs).
Notation Repr := (Repr defs).
Notation KM := (KM O allowed).
Notation KS := (KS O allowed).
Notation Inv := (Inv O allowed defs T).
Notation at_ st i p := (nth_error (pats st) i = Some p) (only parsing).
Hypothesis Hdefs : forall r X, body r = Some X -> SOK X.

Lemma KM_copy st m j t ts i k q : at_ st i q -> at_ st k q -> KM st m j t ts i -> KM st m j t ts k.
Proof.
  intros Hi Hk H; inversion H; subst; rewrite Hi in *;
    match goal with E : Some ?q = Some _ |- _ => injection E as -> end.
  - eapply K_choice; eassumption.
  - eapply K_na; eassumption.
  - eapply K_after; eassumption.
  - eapply K_group; eassumption.
  - eapply K_inter; eassumption.
  - eapply K_more; eassumption.
  - eapply K_empty; eassumption.
  - eapply K_text; eassumption.
  - eapply K_attr; eassumption.
  - eapply K_elem; eassumption.
  - eapply K_data; eassumption.
  - eapply K_value; eassumption.
  - eapply K_except; eassumption.
  - eapply K_list; eassumption.
Qed.
Lemma KS_copy st i k q : at_ st i q -> at_ st k q -> KS st i -> KS st k.
Proof.
  intros Hi Hk H; inversion H; subst; rewrite Hi in *;
    match goal with E : Some ?q = Some _ |- _ => injection E as -> end.
  - eapply KS_choice; eassumption.
  - eapply KS_na; eassumption.
  - eapply KS_data; eassumption.
  - eapply KS_value; eassumption.
  - eapply KS_except; eassumption.
Qed.

Variable st : store.
Hypothesis HI : Inv st [].

Lemma fin_ref r i : lref st r = Some i -> exists j X q, body r = Some X /\ Fact defs st X j /\ at_ st j q /\ at_ st i q.
Proof.
  intros H. destruct (I_ref _ _ _ _ _ _ HI r i H) as [[[] _]|[_ (j & X & q & H1 & H2 & H3 & H4 & _)]].
  exists j, X, q; auto.
Qed.

Lemma more_ok_hd op x l : more_ok (mkl op (x :: l)) -> more_ok x.
Proof. intros [H|(r & Y & E & _)]; [left; eapply good_hd; exact H | destruct op; discriminate E]. Qed.
Lemma more_ok_tl op x l : more_ok (mkl op (x :: l)) -> more_ok (mkl op l).
Proof. intros [H|(r & Y & E & _)]; [left; eapply good_tl; exact H | destruct op; discriminate E]. Qed.
Lemma more_ok_imp X Y : (forall r, X <> MRef r) -> (forall r, ureach defs Y r -> ureach defs X r) -> more_ok X -> more_ok Y.
Proof. intros Hn Hu [H|(r & Z & E & _)]; [left; eapply good_imp; eassumption | destruct (Hn r E)]. Qed.
Lemma more_ok_ref r X : body r = Some X -> more_ok (MRef r) -> good X.
Proof. intros Hb [H|(r' & Z & E & Hb' & H)]; [eapply good_ref; eassumption | injection E as ->; assert (X = Z) as -> by congruence; exact H]. Qed.

Definition nbool (op : nop) (a b : bool) : bool := match op with OpC => a || b | _ => a && b end.
Lemma flag_nbool op n (N1 N2 N : Prop) b1 b2 : flag true N n -> (N <-> nulop op N1 N2) ->
  (b1 = true <-> N1) -> (b2 = true <-> N2) -> n = nbool op b1 b2.
Proof.
  intros [F1 F2] HN H1 H2. apply Bool.eq_true_iff_eq. transitivity N; [split; auto|]. rewrite HN.
  destruct op; cbn; rewrite <- H1, <- H2; [symmetry; apply orb_true_iff | symmetry; apply andb_true_iff | symmetry; apply andb_true_iff].
Qed.

Lemma opC_nul op id a b (N1 N2 N : Prop) : opC st true N op id a b -> (N <-> nulop op N1 N2) ->
  (nul st a = true <-> N1) -> (nul st b = true <-> N2) -> (nul st id = true <-> N).
Proof.
  intros [(n & Hn & Hf)|H] HN H1 H2.
  - assert (Hnn : nul st id = n) by (rewrite (nul_at _ _ _ Hn); destruct op; reflexivity). rewrite Hnn.
    destruct Hf as [F1 F2]; split; auto.
  - rewrite HN. destruct op; cbn.
    + destruct H as [[H ->]|[[H ->]|[-> ->]]].
      * rewrite (nul_at _ _ _ H) in H1; cbn in H1. rewrite H2. intuition congruence.
      * rewrite (nul_at _ _ _ H) in H2; cbn in H2. rewrite H1. intuition congruence.
      * rewrite H2; tauto || (rewrite <- H1, H2; tauto).
    + destruct H as [[[H|H] H']|[[H ->]|[H ->]]].
      * rewrite (nul_at _ _ _ H) in H1; rewrite (nul_at _ _ _ H'); cbn in *. intuition congruence.
      * rewrite (nul_at _ _ _ H) in H2; rewrite (nul_at _ _ _ H'); cbn in *. intuition congruence.
      * rewrite (nul_at _ _ _ H) in H1; cbn in *. rewrite H2. intuition congruence.
      * rewrite (nul_at _ _ _ H) in H2; cbn in *. rewrite H1. intuition congruence.
    + destruct H as [[[H|H] H']|[[H ->]|[H ->]]].
      * rewrite (nul_at _ _ _ H) in H1; rewrite (nul_at _ _ _ H'); cbn in *. intuition congruence.
      * rewrite (nul_at _ _ _ H) in H2; rewrite (nul_at _ _ _ H'); cbn in *. intuition congruence.
      * rewrite (nul_at _ _ _ H) in H1; cbn in *. rewrite H2. intuition congruence.
      * rewrite (nul_at _ _ _ H) in H2; cbn in *. rewrite H1. intuition congruence.
Qed.

(** nullability flags are exact where the representation is *)
Lemma Repr_nul : forall X id, Repr st true X id -> more_ok X -> (nul st id = true <-> Nul X).
Proof.
  assert (HL : forall op l, Forall (fun X => forall id, Repr st true X id -> more_ok X -> (nul st id = true <-> Nul X)) l ->
    forall id, Repr st true (mkl op l) id -> more_ok (mkl op l) -> (nul st id = true <-> Nul (mkl op l))).
  { intros op l Hl; induction Hl as [|x l Hx Hl IH]; intros id HR Hm; [rewrite Repr_0 in HR; destruct HR|].
    destruct l as [|y l].
    - rewrite Repr_1 in HR. rewrite (Nul_mkl1 defs). apply Hx; [exact HR | eapply more_ok_hd; exact Hm].
    - rewrite Repr_2 in HR. destruct HR as (a & b & Ha & Hb & Ho).
      eapply opC_nul; [exact Ho | apply (Nul_mkl defs) | apply Hx; [exact Ha | eapply more_ok_hd; exact Hm] |
        apply IH; [exact Hb | eapply more_ok_tl; exact Hm]]. }
  assert (Hleaf : forall X p, is_nullable p = false -> ~ Nul X -> forall id, at_ st id p -> (nul st id = true <-> Nul X)).
  { intros X p Hp HN id Hid. rewrite (nul_at _ _ _ Hid), Hp. split; [discriminate | contradiction]. }
  refine (mpat_ind' _ _ _ _ _ _ _ _ _ _ _ _ _ _ _ _ _).
  - intros l H; exact (HL OpC l H).
  - intros l H; exact (HL OpI l H).
  - intros l H; exact (HL OpG l H).
  - intros p IH id (a & t & Ha & Ht & Ho) Hm.
    assert (Hp : nul st a = true <-> Nul p) by (apply IH; [exact Ha | eapply more_ok_imp; [| |exact Hm]; [discriminate | intros; apply ur_mixed; assumption]]).
    rewrite (opC_nul OpI id a t (Nul p) True (Nul p) Ho); [| cbn; tauto | exact Hp | rewrite (nul_at _ _ _ Ht); cbn; tauto].
    split; [apply Nul_mixed | intros H; inversion H; auto].
  - intros id H _. rewrite (nul_at _ _ _ H). split; [constructor | reflexivity].
  - intros id H _. rewrite (nul_at _ _ _ H). split; [constructor | reflexivity].
  - intros id H _. apply (Hleaf MNotAllowed PNotAllowed); [reflexivity | intros HN; inversion HN | exact H].
  - intros p IH id (a & t & Ha & Ht & Ho) Hm.
    assert (Hp : nul st a = true <-> Nul p) by (apply IH; [exact Ha | eapply more_ok_imp; [| |exact Hm]; [discriminate | intros; apply ur_opt; assumption]]).
    rewrite (opC_nul OpC id a t (Nul p) True True Ho); [| cbn; tauto | exact Hp | rewrite (nul_at _ _ _ Ht); cbn; tauto].
    split; [intros _; constructor | auto].
  - intros p IH id (a & o & n & t & Ha & Hn & Hf & Ht & Ho) Hm.
    rewrite (opC_nul OpC id o t (Nul p) True True Ho); [| cbn; tauto | rewrite (nul_at _ _ _ Hn); cbn; destruct Hf; split; auto | rewrite (nul_at _ _ _ Ht); cbn; tauto].
    split; [intros _; constructor | auto].
  - intros p IH id (a & n & Ha & Hn & Hf) Hm. rewrite (nul_at _ _ _ Hn); cbn. destruct Hf as [F1 F2].
    split; [intros H; constructor; auto | intros H; inversion H; auto].
  - intros nc p IH id (a & Ha & Hid) _. eapply Hleaf; [|intros HN; inversion HN|exact Hid]; reflexivity.
  - intros nc p IH id (a & Ha & Hid) _. eapply Hleaf; [|intros HN; inversion HN|exact Hid]; reflexivity.
  - intros r id Hr Hm. destruct (fin_ref r id Hr) as (j & X & q & Hb & (A1 & A2 & A3 & A4 & _) & Hj & Hi).
    assert (Hn : nul st id = nul st j) by (rewrite (nul_at _ _ _ Hi), (nul_at _ _ _ Hj); reflexivity). rewrite Hn.
    split; [intros H; econstructor; [exact Hb | auto]|]. intros H; inversion H as [| | | | | | | | | | | |r0 X0 HbX HX]; subst.
    assert (X0 = X) as -> by congruence. apply A4; [eapply more_ok_ref; eassumption | exact HX].
  - intros v id Hid _. eapply Hleaf; [|intros HN; inversion HN|exact Hid]; reflexivity.
  - intros d [e|] IH id; cbn.
    + intros (a & Ha & Hid) _. eapply Hleaf; [|intros HN; inversion HN|exact Hid]; reflexivity.
    + intros Hid _. eapply Hleaf; [|intros HN; inversion HN|exact Hid]; reflexivity.
  - intros p IH id (a & Ha & Hid) _. eapply Hleaf; [|intros HN; inversion HN|exact Hid]; reflexivity.
Qed.

Lemma Repr_KS X : EXC defs X -> SOK X -> forall id, Repr st false X id -> KS st id.
Proof.
  induction 1 as [|x Hx IHx|x l Hx IHx Hl IHl|d|d e He IHe|v|r X Hb HX IHX]; intros HS id HR.
  - eapply KS_na; exact HR.
  - change (MChoice [x]) with (mkl OpC [x]) in HR. rewrite Repr_1 in HR. apply IHx; [apply HS | exact HR].
  - change (MChoice (x :: l)) with (mkl OpC (x :: l)) in HR. destruct l as [|y l].
    + rewrite Repr_1 in HR. apply IHx; [apply HS | exact HR].
    + rewrite Repr_2 in HR. destruct HR as (a & b & Ha & Hb & Ho).
      assert (Ka : KS st a) by (apply IHx; [apply HS | exact Ha]).
      assert (Kb : KS st b) by (apply IHl; [cbn in HS |- *; split; [discriminate | apply HS] | exact Hb]).
      destruct Ho as [(n & Hn & _)|[[_ ->]|[[_ ->]|[_ ->]]]]; auto. eapply KS_choice; eassumption.
  - eapply KS_data; [exact HR | apply HS].
  - destruct HR as (a & Ha & Hid). cbn in HS. destruct HS as (H1 & H2 & _). eapply KS_except; [exact Hid | exact H1 | auto].
  - eapply KS_value; [exact HR | exact HS].
  - destruct (fin_ref r id HR) as (j & Y & q & Hb' & (A1 & _) & Hj & Hi). assert (Y = X) as -> by congruence.
    eapply KS_copy; [exact Hj | exact Hi | apply IHX; [eapply Hdefs; exact Hb | exact A1]].
Qed.

Lemma KM_choice_opC e j t id a b N1 N2 N : opC st e N OpC id a b -> (N <-> nulop OpC N1 N2) ->
  (e = true -> nul st a = true <-> N1) -> (e = true -> nul st b = true <-> N2) ->
  KM st e j t [] a -> KM st e j t [] b -> KM st e j t [] id.
Proof.
  intros [(n & Hn & Hf)|[[_ ->]|[[_ ->]|[_ ->]]]] HN H1 H2 Ka Kb; auto.
  eapply K_choice; [exact Hn | exact Ka | exact Kb|]. intros ->. apply (flag_nbool OpC n N1 N2 N); auto.
Qed.
Lemma KM_group_opC e j t id a b N1 N2 N : opC st e N OpG id a b -> (N <-> nulop OpG N1 N2) ->
  (e = true -> nul st a = true <-> N1) -> (e = true -> nul st b = true <-> N2) ->
  KM st e j t [] a -> KM st e j t [] b -> KM st e j t [] id.
Proof.
  intros [(n & Hn & Hf)|[[_ H]|[[_ ->]|[_ ->]]]] HN H1 H2 Ka Kb; auto; [|eapply K_na; exact H].
  eapply K_group; [exact Hn | exact Ka | exact Kb|]. intros ->. apply (flag_nbool OpG n N1 N2 N); auto.
Qed.
Lemma KM_inter_opC e j t id a b N1 N2 N : opC st e N OpI id a b -> (N <-> nulop OpI N1 N2) ->
  (e = true -> nul st a = true <-> N1) -> (e = true -> nul st b = true <-> N2) ->
  KM st e j t [] a -> KM st e j t [] b ->
  (t = TA -> KM st e j TN [] a /\ KM st e j TN [] b \/ KM st e j TE [] a \/ KM st e j TE [] b) -> KM st e j t [] id.
Proof.
  intros [(n & Hn & Hf)|[[_ H]|[[_ ->]|[_ ->]]]] HN H1 H2 Ka Kb Hc; auto; [|eapply K_na; exact H].
  eapply K_inter; [exact Hn | exact Ka | exact Kb| |exact Hc]. intros ->. apply (flag_nbool OpI n N1 N2 N); auto.
Qed.

Lemma SOK_mkl_hd op x l : SOK (mkl op (x :: l)) -> SOK x.
Proof. destruct op; cbn; intros H; apply H. Qed.
Lemma SOK_mkl_tl op x y l : SOK (mkl op (x :: y :: l)) -> SOK (mkl op (y :: l)).
Proof. destruct op; cbn; intros H; (split; [discriminate | apply H]). Qed.

Lemma Repr_KM j t X : TYP j t X -> forall e id, Repr st e X id -> SOK X -> (e = true -> more_ok X) -> KM st e j t [] id.
Proof.
  induction 1 as [j j' t t' X HT IH Hj Ht
    |j t x HT IH|j t x l HT IH HTl IHl|j t x HT IH|j t x l HT IH HTl IHl|j t x HT IH
    |j t x l Hta HT IH HTl IHl|j x l HT IH HTl IHl|j x l HT IH HTl IHl
    |j p HT IH|j t|j|j t|j t p HT IH|j t p HT IH|j t p HT IH|j j' t nc p HT IH|j nc p|j t r X Hb HT IH|j v|j d ex|j p HT IH];
    intros e id HR HS Hm.
  - eapply (K_mono O allowed st j j' t t'); [exact Hj | destruct t, t'; exact Ht | apply IH; assumption].
  - change (MChoice [x]) with (mkl OpC [x]) in *. rewrite Repr_1 in HR. apply IH; [exact HR | eapply SOK_mkl_hd; exact HS | intros E; eapply more_ok_hd; exact (Hm E)].
  - change (MChoice (x :: l)) with (mkl OpC (x :: l)) in *. destruct l as [|y l].
    + rewrite Repr_1 in HR. apply IH; [exact HR | eapply SOK_mkl_hd; exact HS | intros E; eapply more_ok_hd; exact (Hm E)].
    + rewrite Repr_2 in HR. destruct HR as (a & b & Ha & Hb & Ho).
      eapply KM_choice_opC; [exact Ho | apply (Nul_mkl defs OpC) | | | |].
      * intros ->. apply Repr_nul; [exact Ha | eapply more_ok_hd; exact (Hm eq_refl)].
      * intros ->. apply Repr_nul; [exact Hb | eapply more_ok_tl; exact (Hm eq_refl)].
      * apply IH; [exact Ha | eapply SOK_mkl_hd; exact HS | intros E; eapply more_ok_hd; exact (Hm E)].
      * apply IHl; [exact Hb | eapply (SOK_mkl_tl OpC); exact HS | intros E; eapply (more_ok_tl OpC); exact (Hm E)].
  - change (MGroup [x]) with (mkl OpG [x]) in *. rewrite Repr_1 in HR. apply IH; [exact HR | eapply SOK_mkl_hd; exact HS | intros E; eapply more_ok_hd; exact (Hm E)].
  - change (MGroup (x :: l)) with (mkl OpG (x :: l)) in *. destruct l as [|y l].
    + rewrite Repr_1 in HR. apply IH; [exact HR | eapply SOK_mkl_hd; exact HS | intros E; eapply more_ok_hd; exact (Hm E)].
    + rewrite Repr_2 in HR. destruct HR as (a & b & Ha & Hb & Ho).
      eapply KM_group_opC; [exact Ho | apply (Nul_mkl defs OpG) | | | |].
      * intros ->. apply Repr_nul; [exact Ha | eapply more_ok_hd; exact (Hm eq_refl)].
      * intros ->. apply Repr_nul; [exact Hb | eapply more_ok_tl; exact (Hm eq_refl)].
      * apply IH; [exact Ha | eapply SOK_mkl_hd; exact HS | intros E; eapply more_ok_hd; exact (Hm E)].
      * apply IHl; [exact Hb | eapply (SOK_mkl_tl OpG); exact HS | intros E; eapply (more_ok_tl OpG); exact (Hm E)].
  - change (MInterleave [x]) with (mkl OpI [x]) in *. rewrite Repr_1 in HR. apply IH; [exact HR | eapply SOK_mkl_hd; exact HS | intros E; eapply more_ok_hd; exact (Hm E)].
  - change (MInterleave (x :: l)) with (mkl OpI (x :: l)) in *. destruct l as [|y l].
    + rewrite Repr_1 in HR. apply IH; [exact HR | eapply SOK_mkl_hd; exact HS | intros E; eapply more_ok_hd; exact (Hm E)].
    + rewrite Repr_2 in HR. destruct HR as (a & b & Ha & Hb & Ho).
      eapply KM_inter_opC; [exact Ho | apply (Nul_mkl defs OpI) | | | | |].
      * intros ->. apply Repr_nul; [exact Ha | eapply more_ok_hd; exact (Hm eq_refl)].
      * intros ->. apply Repr_nul; [exact Hb | eapply more_ok_tl; exact (Hm eq_refl)].
      * apply IH; [exact Ha | eapply SOK_mkl_hd; exact HS | intros E; eapply more_ok_hd; exact (Hm E)].
      * apply IHl; [exact Hb | eapply (SOK_mkl_tl OpI); exact HS | intros E; eapply (more_ok_tl OpI); exact (Hm E)].
      * intros E; contradiction.
  - change (MInterleave (x :: l)) with (mkl OpI (x :: l)) in *. destruct l as [|y l].
    + rewrite Repr_1 in HR. eapply (K_mono O allowed st j j TE TA); [apply le_n | exact I|]. apply IH; [exact HR | eapply SOK_mkl_hd; exact HS | intros E; eapply more_ok_hd; exact (Hm E)].
    + rewrite Repr_2 in HR. destruct HR as (a & b & Ha & Hb & Ho).
      assert (Ka : KM st e j TE [] a) by (apply IH; [exact Ha | eapply SOK_mkl_hd; exact HS | intros E; eapply more_ok_hd; exact (Hm E)]).
      eapply KM_inter_opC; [exact Ho | apply (Nul_mkl defs OpI) | | | | |].
      * intros ->. apply Repr_nul; [exact Ha | eapply more_ok_hd; exact (Hm eq_refl)].
      * intros ->. apply Repr_nul; [exact Hb | eapply more_ok_tl; exact (Hm eq_refl)].
      * eapply (K_mono O allowed st j j TE TA); [apply le_n | exact I | exact Ka].
      * apply IHl; [exact Hb | eapply (SOK_mkl_tl OpI); exact HS | intros E; eapply (more_ok_tl OpI); exact (Hm E)].
      * auto.
  - change (MInterleave (x :: l)) with (mkl OpI (x :: l)) in *. destruct l as [|y l].
    + rewrite Repr_1 in HR. apply IH; [exact HR | eapply SOK_mkl_hd; exact HS | intros E; eapply more_ok_hd; exact (Hm E)].
    + rewrite Repr_2 in HR. destruct HR as (a & b & Ha & Hb & Ho).
      assert (Kb : KM st e j TE [] b) by (apply IHl; [exact Hb | eapply (SOK_mkl_tl OpI); exact HS | intros E; eapply (more_ok_tl OpI); exact (Hm E)]).
      eapply KM_inter_opC; [exact Ho | apply (Nul_mkl defs OpI) | | | | |].
      * intros ->. apply Repr_nul; [exact Ha | eapply more_ok_hd; exact (Hm eq_refl)].
      * intros ->. apply Repr_nul; [exact Hb | eapply more_ok_tl; exact (Hm eq_refl)].
      * apply IH; [exact Ha | eapply SOK_mkl_hd; exact HS | intros E; eapply more_ok_hd; exact (Hm E)].
      * eapply (K_mono O allowed st j j TE TA); [apply le_n | exact I | exact Kb].
      * auto.
  - destruct HR as (a & b & Ha & Hb & Ho).
    assert (Hp : e = true -> more_ok p) by (intros E; eapply more_ok_imp; [| |exact (Hm E)]; [discriminate | intros; apply ur_mixed; assumption]).
    eapply KM_inter_opC with (N1 := Nul p) (N2 := True); [exact Ho | cbn; tauto | | | | |].
    + intros ->. apply Repr_nul; auto.
    + intros _. rewrite (nul_at _ _ _ Hb); cbn; tauto.
    + apply IH; auto.
    + eapply K_text; [exact Hb | discriminate].
    + discriminate.
  - eapply K_empty; exact HR.
  - eapply K_text; [exact HR | discriminate].
  - eapply K_na; exact HR.
  - destruct HR as (a & b & Ha & Hb & Ho).
    assert (Hp : e = true -> more_ok p) by (intros E; eapply more_ok_imp; [| |exact (Hm E)]; [discriminate | intros; apply ur_opt; assumption]).
    eapply KM_choice_opC with (N1 := Nul p) (N2 := True); [exact Ho | cbn; tauto | | | |].
    + intros ->. apply Repr_nul; auto.
    + intros _. rewrite (nul_at _ _ _ Hb); cbn; tauto.
    + apply IH; auto.
    + eapply K_empty; exact Hb.
  - destruct HR as (a & o & n & b & Ha & Hn & Hf & Hb & Ho). cbn in HS. destruct HS as [HSp Hmo].
    eapply KM_choice_opC with (N1 := Nul p) (N2 := True); [exact Ho | cbn; tauto | | | |].
    + intros ->. rewrite (nul_at _ _ _ Hn); cbn. destruct Hf; split; auto.
    + intros _. rewrite (nul_at _ _ _ Hb); cbn; tauto.
    + eapply K_more; [exact Hn | apply IH; auto|]. intros ->. destruct Hf as [F1 F2]. apply Bool.eq_true_iff_eq.
      rewrite (Repr_nul p a Ha Hmo). split; auto.
    + eapply K_empty; exact Hb.
  - destruct HR as (a & n & Ha & Hn & Hf). cbn in HS. destruct HS as [HSp Hmo].
    eapply K_more; [exact Hn | apply IH; auto|]. intros ->. destruct Hf as [F1 F2]. apply Bool.eq_true_iff_eq.
    rewrite (Repr_nul p a Ha Hmo). split; auto.
  - destruct HR as (a & Ha & Hid). cbn in HS. destruct HS as [HSp Hg]. eapply K_attr; [exact Hid | apply IH; auto]. intros _; left; exact Hg.
  - destruct HR as (a & Ha & Hid). eapply K_elem; [exact Hid | discriminate].
  - destruct (fin_ref r id HR) as (k & Y & q & Hb' & (A1 & A2 & _) & Hk & Hi). assert (Y = X) as -> by congruence.
    eapply KM_copy; [exact Hk | exact Hi|]. apply IH; [| eapply Hdefs; exact Hb | intros E; left; eapply more_ok_ref; [exact Hb | exact (Hm E)]].
    destruct e; [apply A2; eapply more_ok_ref; [exact Hb | exact (Hm eq_refl)] | exact A1].
  - eapply K_value; [exact HR | exact HS].
  - destruct ex as [x|].
    + destruct HR as (a & Ha & Hid). cbn in HS. destruct HS as (H1 & H2 & H3).
      eapply K_except; [exact Hid | exact H1 | eapply Repr_KS; eassumption].
    + eapply K_data; [exact HR | apply HS].
  - destruct HR as (a & Ha & Hid). cbn in HS. destruct HS as [HSp Hg]. eapply K_list; [exact Hid | apply IH; auto]. intros _; left; exact Hg.
Qed.

Lemma Inv_G : G O allowed T st.
Proof.
  constructor.
  - intros id p c Hid Hc. exact (I_closed _ _ _ _ _ _ HI id p c Hid Hc).
  - intros p id H. destruct (I_memo _ _ _ _ _ _ HI p id H) as [H'|(r & -> & _)]; auto.
  - intros id nc c H. destruct (I_elem _ _ _ _ _ _ HI id nc c H) as (X & H1 & H2 & j & H3).
    exists j. eapply Repr_KM; [exact H3 | exact H1 | exact H2 | discriminate].
Qed.

(** start patterns *)
Lemma START_not_Nul X : START defs X -> ~ Nul X.
Proof.
  induction 1 as [|nc p|x Hx IH|x l Hx IHx Hl IHl|r X Hb HX IH]; intros HN; inversion HN; subst; auto.
  - match goal with H : Schema.Nul _ (MChoice []) |- _ => inversion H end.
  - assert (X0 = X) as -> by congruence; auto.
Qed.
Lemma START_mkl_in l x : START defs (MChoice l) -> In x l -> START defs x.
Proof.
  induction l as [|y l IH]; intros H Hin; [destruct Hin|]. inversion H; subst.
  - destruct Hin as [<-|[]]; assumption.
  - destruct Hin as [<-|Hin]; [assumption | apply IH; assumption].
Qed.
Lemma START_ureach X r : ureach defs X r -> START defs X -> forall Y, body r = Some Y -> START defs Y.
Proof.
  induction 1 as [r|r X r' Hb Hu IH|x l r Hin Hu IH|x l r Hin Hu IH|x l r Hin Hu IH|p r Hu IH|p r Hu IH|p r Hu IH|p r Hu IH];
    intros HS Y HY; try (inversion HS; fail).
  - inversion HS as [| | | |r0 X0 H1 H2]; subst. assert (X0 = Y) as -> by congruence. exact H2.
  - inversion HS as [| | | |r0 X0 H1 H2]; subst. assert (X0 = X) as -> by congruence. auto.
  - apply IH; [eapply START_mkl_in; eassumption | exact HY].
Qed.
Lemma START_good X : START defs X -> good X.
Proof. intros HS r Y Hu _ Hb. apply START_not_Nul. eapply START_ureach; eassumption. Qed.
Lemma START_TYP X : START defs X -> TYP 0 TN X.
Proof.
  induction 1; [apply Ty_na | apply Ty_elem | apply Ty_ch1; assumption | apply Ty_ch; assumption | eapply Ty_ref; eassumption].
Qed.
Lemma SE_copy i k q : at_ st i q -> at_ st k q -> SE st i -> SE st k.
Proof.
  intros Hi Hk H; inversion H; subst; rewrite Hi in *;
    match goal with E : Some ?q = Some _ |- _ => injection E as -> end;
    [eapply SE_na | eapply SE_elem | eapply SE_choice]; eassumption.
Qed.
Lemma START_SE X : START defs X -> forall e id, Repr st e X id -> SE st id.
Proof.
  induction 1 as [|nc p|x Hx IH|x l Hx IHx Hl IHl|r X Hb HX IH]; intros e id HR.
  - eapply SE_na; exact HR.
  - destruct HR as (a & _ & Hid). eapply SE_elem; exact Hid.
  - change (MChoice [x]) with (mkl OpC [x]) in *. rewrite Repr_1 in HR. eapply IH; exact HR.
  - change (MChoice (x :: l)) with (mkl OpC (x :: l)) in *. destruct l as [|y l].
    + rewrite Repr_1 in HR. eapply IHx; exact HR.
    + rewrite Repr_2 in HR. destruct HR as (a & b & Ha & Hb & Ho).
      destruct Ho as [(n & Hn & _)|[[_ ->]|[[_ ->]|[_ ->]]]]; eauto. eapply SE_choice; eauto.
  - destruct (fin_ref r id HR) as (k & Y & q & Hb' & (A1 & _) & Hk & Hi). assert (Y = X) as -> by congruence.
    eapply SE_copy; [exact Hk | exact Hi | eapply IH; exact A1].
Qed.
End FP.

(** ** Building a validator *)
Theorem new_validator_ok O allowed defs T start : schema_ok O allowed defs T start ->
  exists n r, (forall m, n <= m -> new_validator defs m (Some start) = r) /\
    (r = Panic PTooManyPatterns \/
     exists st id, r = Ok (Validator st id false [] initial_entities) /\
       CompileProof.Inv O allowed defs T st [] /\ CompileProof.Repr defs st true start id /\ SE st id /\ G O allowed T st /\
       KM O allowed st true 0 TN [] id).
Proof.
  intros [H1 H2 H3 H4].
  destruct (compile_ok O allowed defs T H1 H4 (unreg defs empty_store) start empty_store []) as (n & r & H & Hr);
    [apply Inv_empty | exact H2 | apply le_n | intros r0 r' []|].
  exists n. destruct r as [[id st]|p|]; [| |contradiction].
  - exists (Ok (Validator st id false [] initial_entities)); split.
    + intros m Hm. unfold new_validator. rewrite (H m Hm). reflexivity.
    + right. exists st, id. destruct Hr as (HI & _ & _ & (A1 & A2 & _)). split; [reflexivity|].
      pose proof (START_good defs start H3) as Hg.
      split; [exact HI|]. split; [exact (A2 Hg)|]. split; [eapply START_SE; eassumption|].
      split; [eapply Inv_G; eassumption|]. eapply Repr_KM; try eassumption; [eapply START_TYP; exact H3 | exact (A2 Hg) | intros _; left; exact Hg].
  - exists (Panic p); split; [|left; f_equal; exact Hr]. intros m Hm. unfold new_validator. rewrite (H m Hm). reflexivity.
Qed.
