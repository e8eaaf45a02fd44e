(** * SourceTr: compiled patterns mean what their sources mean (proof machinery for C28, C29, C32). *)
From Coq Require Import Permutation String.
From Verif Require Import Base Datatype Facets Store Lang Compile Syntax SchemaCompile Spec SpecFacts SourceSpec.

(** ** Matching with a bound on the height of the derivation *)
Section Height.
Variable O : oracles.
Variable defs : list mpat.
Variable w3 : bool.
Definition texts (m : list item) : Prop := Forall (fun i => exists s, i = Txt s) m.
Fixpoint XH (n : nat) (X : mpat) (s : str) (b : bool) : Prop :=
  match n with
  | 0 => False
  | S n =>
      match X with
      | MNotAllowed => b = false
      | MChoice l =>
          match l with
          | [] => False
          | x :: l' => match l' with
                       | [] => XH n x s b
                       | _ => exists b1 b2, XH n x s b1 /\ XH n (MChoice l') s b2 /\ b = b1 || b2
                       end
          end
      | MData d None => dt_valid O d s = Ok b
      | MData d (Some e) => exists b1 b2, dt_valid O d s = Ok b1 /\ XH n e s b2 /\ b = b1 && negb b2
      | MValue v => dt_value_valid v s = Ok b
      | MRef r => exists X, deref defs r = Some X /\ XH n X s b
      | _ => False
      end
  end.
Definition WH (MH : list attr -> list item -> mpat -> Prop) (a : list attr) (m : list item) (p : mpat) : Prop :=
  MH a m p \/ (exists s, m = [Txt s] /\ blank s /\ MH a [] p) \/ (w3 = true /\ m = [] /\ MH a [Txt []] p).
Fixpoint MH (n : nat) (a : list attr) (m : list item) (X : mpat) : Prop :=
  match n with
  | 0 => False
  | S n =>
      match X with
      | MChoice l => exists x, In x l /\ MH n a m x
      | MGroup l =>
          match l with
          | [] => False
          | x :: l' => match l' with
                       | [] => MH n a m x
                       | _ => exists a1 a2 m1 m2, Permutation a (a1 ++ a2) /\ m = m1 ++ m2 /\ MH n a1 m1 x /\ MH n a2 m2 (MGroup l')
                       end
          end
      | MInterleave l =>
          match l with
          | [] => False
          | x :: l' => match l' with
                       | [] => MH n a m x
                       | _ => exists a1 a2 m1 m2, Permutation a (a1 ++ a2) /\ Lang.merge m1 m2 m /\ MH n a1 m1 x /\ MH n a2 m2 (MInterleave l')
                       end
          end
      | MMixed p => exists m1 m2, Lang.merge m1 m2 m /\ MH n a m1 p /\ texts m2
      | MOptional p => MH n a m p \/ a = [] /\ m = []
      | MZeroOrMore p => MH n a m (MOneOrMore p) \/ a = [] /\ m = []
      | MOneOrMore p => MH n a m p \/ exists a1 a2 m1 m2, Permutation a (a1 ++ a2) /\ m = m1 ++ m2 /\ MH n a1 m1 p /\ MH n a2 m2 (MOneOrMore p)
      | MEmpty => a = [] /\ m = []
      | MText => a = [] /\ texts m
      | MNotAllowed => False
      | MAttribute nc p => exists x, a = [x] /\ m = [] /\ in_class nc (a_name x) /\ WH (MH n) [] [Txt (a_value x)] p
      | MElement nc p => exists nm a' k ws1 ws2, a = [] /\ m = ws1 ++ Elm nm a' k :: ws2 /\ in_class nc nm /\ children_ok k /\
          WH (MH n) a' k p /\ ws ws1 /\ ws ws2
      | MRef r => exists X, deref defs r = Some X /\ MH n a m X
      | MValue v => exists s, a = [] /\ m = [Txt s] /\ dt_value_valid v s = Ok true
      | MData d None => exists s, a = [] /\ m = [Txt s] /\ dt_valid O d s = Ok true
      | MData d (Some e) => exists s, a = [] /\ m = [Txt s] /\ dt_valid O d s = Ok true /\ XH n e s false
      | MList p => exists s, a = [] /\ m = [Txt s] /\ MH n [] (map Txt (xml_split s)) p
      end
  end.

Lemma XH_mono n : forall X s b, XH n X s b -> XH (S n) X s b.
Proof.
  induction n as [|n IH]; intros X s b H; [destruct H|].
  cbn [XH] in H. destruct X; cbn in H |- *; try exact H.
  - destruct l as [|x [|y l]]; [exact H | apply IH; exact H|].
    destruct H as (b1 & b2 & H1 & H2 & ->). exists b1, b2. split; [apply IH; exact H1|]. split; [|reflexivity].
    apply (IH (MChoice (y :: l))). exact H2.
  - destruct H as (X & H1 & H2). exists X. split; [exact H1 | apply IH; exact H2].
  - destruct ex as [e|]; [|exact H]. destruct H as (b1 & b2 & H1 & H2 & ->). exists b1, b2. split; [exact H1|]. split; [apply IH; exact H2 | reflexivity].
Qed.
Lemma XH_le n n' X s b : n <= n' -> XH n X s b -> XH n' X s b.
Proof. induction 1; [auto|]. intros H'. apply XH_mono, IHle, H'. Qed.
Lemma WH_impl (A B : list attr -> list item -> mpat -> Prop) a m p : (forall a m p, A a m p -> B a m p) -> WH A a m p -> WH B a m p.
Proof. intros H [H1|[(s & H1 & H2 & H3)|(H1 & H2 & H3)]]; [left; auto | right; left; exists s; auto | right; right; auto]. Qed.
Lemma MH_mono n : forall a m X, MH n a m X -> MH (S n) a m X.
Proof.
  induction n as [|n IH]; intros a m X H; [destruct H|].
  cbn [MH] in H. pose proof (fun X s b => XH_mono n X s b) as HX. set (kk := S n) in *. change (MH (S kk) a m X). clearbody kk. destruct X; cbn [MH]; try exact H.
  - destruct H as (x & H1 & H2); exists x; split; [exact H1 | apply IH; exact H2].
  - destruct l as [|x [|y l]]; [exact H | apply IH; exact H|].
    destruct H as (a1 & a2 & m1 & m2 & H1 & H2 & H3 & H4). exists a1, a2, m1, m2. split; [exact H1|]. split; [exact H2|]. split; apply IH; assumption.
  - destruct l as [|x [|y l]]; [exact H | apply IH; exact H|].
    destruct H as (a1 & a2 & m1 & m2 & H1 & H2 & H3 & H4). exists a1, a2, m1, m2. split; [exact H1|]. split; [exact H2|]. split; apply IH; assumption.
  - destruct H as (m1 & m2 & H1 & H2 & H3). exists m1, m2. split; [exact H1|]. split; [apply IH; exact H2 | exact H3].
  - destruct H as [H|H]; [left; apply IH; exact H | right; exact H].
  - destruct H as [H|H]; [left; apply IH; exact H | right; exact H].
  - destruct H as [H|(a1 & a2 & m1 & m2 & H1 & H2 & H3 & H4)]; [left; apply IH; exact H|]. right. exists a1, a2, m1, m2. split; [exact H1|]. split; [exact H2|]. split; apply IH; assumption.
  - destruct H as (x & H1 & H2 & H3 & H4). exists x. repeat (split; [assumption|]). eapply WH_impl; [|exact H4]. exact IH.
  - destruct H as (nm & a' & k & w1 & w2 & H1 & H2 & H3 & H4 & H5 & H6 & H7). exists nm, a', k, w1, w2. repeat (split; [assumption|]). split; [|split; assumption].
    eapply WH_impl; [|exact H5]. exact IH.
  - destruct H as (X & H1 & H2). exists X. split; [exact H1 | apply IH; exact H2].
  - destruct ex as [e|]; [|exact H]. destruct H as (s & H1 & H2 & H3 & H4). exists s. repeat (split; [assumption|]). apply HX; exact H4.
  - destruct H as (s & H1 & H2 & H3). exists s. repeat (split; [assumption|]). apply IH; exact H3.
Qed.
Lemma MH_le n n' a m X : n <= n' -> MH n a m X -> MH n' a m X.
Proof. induction 1; [auto|]. intros H'. apply MH_mono, IHle, H'. Qed.

Lemma XM_XH X s b : XM O defs X s b -> exists n, XH n X s b.
Proof.
  induction 1 as [s|x s b _ [n IH]|x y l s b1 b2 _ [n1 IH1] _ [n2 IH2]|d s b H|v s b H|d e s b1 b2 H _ [n IH]|r X s b H _ [n IH]].
  - exists 1; reflexivity.
  - exists (S n); exact IH.
  - exists (S (n1 + n2)). cbn [XH]. exists b1, b2. split; [eapply XH_le; [|exact IH1]; lia|]. split; [eapply XH_le; [|exact IH2]; lia | reflexivity].
  - exists 1; exact H.
  - exists 1; exact H.
  - exists (S n). cbn [XH]. exists b1, b2; auto.
  - exists (S n). cbn [XH]. exists X; auto.
Qed.
Lemma WH_le n n' a m X : n <= n' -> WH (MH n) a m X -> WH (MH n') a m X.
Proof. intros H. apply WH_impl. intros; eapply MH_le; eassumption. Qed.
Lemma MH_perm n : forall a a' m X, Permutation a a' -> MH n a' m X -> MH n a m X.
Proof.
  induction n as [|n IH]; intros a a' m X HP H; [destruct H|]. destruct X; cbn [MH] in H |- *.
  - destruct H as (x & H1 & H2); exists x; split; [exact H1 | eapply IH; eassumption].
  - destruct l as [|x [|y l]]; [exact H | eapply IH; eassumption|].
    destruct H as (a1 & a2 & m1 & m2 & H1 & H2 & H3 & H4). exists a1, a2, m1, m2. split; [etransitivity; eassumption | auto].
  - destruct l as [|x [|y l]]; [exact H | eapply IH; eassumption|].
    destruct H as (a1 & a2 & m1 & m2 & H1 & H2 & H3 & H4). exists a1, a2, m1, m2. split; [etransitivity; eassumption | auto].
  - destruct H as (m1 & m2 & H1 & H2 & H3). exists m1, m2. split; [exact H1|]. split; [eapply IH; eassumption | exact H3].
  - destruct H as [-> ->]. apply Permutation_sym, Permutation_nil in HP. auto.
  - destruct H as [-> H]. apply Permutation_sym, Permutation_nil in HP. auto.
  - exact H.
  - destruct H as [H|[-> ->]]; [left; eapply IH; eassumption|]. apply Permutation_sym, Permutation_nil in HP. auto.
  - destruct H as [H|[-> ->]]; [left; eapply IH; eassumption|]. apply Permutation_sym, Permutation_nil in HP. auto.
  - destruct H as [H|(a1 & a2 & m1 & m2 & H1 & H2 & H3 & H4)]; [left; eapply IH; eassumption|].
    right. exists a1, a2, m1, m2. split; [etransitivity; eassumption | auto].
  - destruct H as (x & -> & H). apply Permutation_sym, Permutation_length_1_inv in HP. subst a. exists x; auto.
  - destruct H as (nm & a'' & k & w1 & w2 & -> & H). apply Permutation_sym, Permutation_nil in HP. subst a. exists nm, a'', k, w1, w2; auto.
  - destruct H as (X & H1 & H2). exists X. split; [exact H1 | eapply IH; eassumption].
  - destruct H as (s & -> & H). apply Permutation_sym, Permutation_nil in HP. exists s; auto.
  - destruct ex as [e|]; destruct H as (s & -> & H); apply Permutation_sym, Permutation_nil in HP; exists s; auto.
  - destruct H as (s & -> & H). apply Permutation_sym, Permutation_nil in HP. exists s; auto.
Qed.
Lemma MW_H : (forall a m X, M O defs w3 a m X -> exists n, MH n a m X) /\ (forall a m X, W O defs w3 a m X -> exists n, WH (MH n) a m X).
Proof.
  apply MW_ind.
  - intros x l a m Hi _ [n IH]. exists (S n). cbn [MH]. exists x; auto.
  - intros x a m _ [n IH]. exists (S n); exact IH.
  - intros x y l a1 a2 a m1 m2 HP _ [n1 I1] _ [n2 I2]. exists (S (n1 + n2)). cbn [MH]. exists a1, a2, m1, m2. split; [exact HP|]. split; [reflexivity|].
    split; (eapply MH_le; [|eassumption]); lia.
  - intros x a m _ [n IH]. exists (S n); exact IH.
  - intros x y l a1 a2 a m1 m2 m HP HM _ [n1 I1] _ [n2 I2]. exists (S (n1 + n2)). cbn [MH]. exists a1, a2, m1, m2. split; [exact HP|]. split; [exact HM|].
    split; (eapply MH_le; [|eassumption]); lia.
  - intros p a m _ [n IH]. destruct n as [|n]; [destruct IH|]. cbn [MH] in IH. destruct IH as (a1 & a2 & m1 & m2 & HP & HM & I1 & I2).
    destruct n as [|n]; [destruct I2|]. cbn [MH] in I2. destruct n as [|n]; [destruct I2|]. cbn [MH] in I2. destruct I2 as [-> I2].
    rewrite app_nil_r in HP. exists (S (S (S n))). set (kk := S (S n)). cbn [MH]. exists m1, m2. split; [exact HM|]. split; [|exact I2].
    exact (MH_perm (S (S n)) a a1 m1 p HP I1).
  - intros p a m _ [n IH]. destruct n as [|n]; [destruct IH|]. cbn [MH] in IH. destruct IH as (x & Hi & IH). exists (S n). cbn [MH].
    destruct Hi as [<-|[<-|[]]]; [left; exact IH|]. right. destruct n as [|n]; [destruct IH|]. exact IH.
  - intros p a m _ [n IH]. destruct n as [|n]; [destruct IH|]. cbn [MH] in IH. destruct IH as (x & Hi & IH). exists (S n). cbn [MH].
    destruct Hi as [<-|[<-|[]]]; [left; exact IH|]. right. destruct n as [|n]; [destruct IH|]. exact IH.
  - intros p a m _ [n IH]. exists (S n). cbn [MH]. left; exact IH.
  - intros p a1 a2 a m1 m2 HP _ [n1 I1] _ [n2 I2]. exists (S (n1 + n2)). cbn [MH]. right. exists a1, a2, m1, m2. split; [exact HP|]. split; [reflexivity|].
    split; (eapply MH_le; [|eassumption]); lia.
  - exists 1; cbn; auto.
  - intros m H. exists 1; cbn; auto.
  - intros nc p x Hc _ [n IH]. exists (S n). cbn [MH]. exists x; auto.
  - intros nc p nm a k w1 w2 Hc Hk _ [n IH] H1 H2. exists (S n). cbn [MH]. exists nm, a, k, w1, w2. repeat (split; [assumption || reflexivity|]). assumption.
  - intros r X a m Hd _ [n IH]. exists (S n). cbn [MH]. exists X; auto.
  - intros d s H. exists 1; cbn. exists s; auto.
  - intros d e s H HX. apply XM_XH in HX. destruct HX as [n HX]. exists (S n). cbn [MH]. exists s; auto.
  - intros v s H. exists 1; cbn. exists s; auto.
  - intros p s _ [n IH]. exists (S n). cbn [MH]. exists s; auto.
  - intros a m p _ [n IH]. exists n. left; exact IH.
  - intros a s p Hb _ [n IH]. exists n. right; left. exists s; auto.
  - intros a p Hw _ [n IH]. exists n. right; right. auto.
Qed.

(** ** Groups, interleavings and choices split at any point *)
Lemma group_split n : forall l1 l2 a m, l1 <> [] -> l2 <> [] -> MH n a m (MGroup (l1 ++ l2)) ->
  exists a1 a2 m1 m2, Permutation a (a1 ++ a2) /\ m = m1 ++ m2 /\ MH n a1 m1 (MGroup l1) /\ MH n a2 m2 (MGroup l2).
Proof.
  induction n as [|n IH]; intros l1 l2 a m N1 N2 H; [destruct H|].
  destruct l1 as [|x l1]; [contradiction|]. cbn [app] in H. cbn [MH] in H.
  destruct (l1 ++ l2) as [|y l] eqn:E; [apply app_eq_nil in E; destruct E; contradiction|].
  destruct H as (a1 & a2 & m1 & m2 & HP & -> & H1 & H2). rewrite <- E in H2.
  destruct l1 as [|x1 l1].
  - exists a1, a2, m1, m2. split; [exact HP|]. split; [reflexivity|]. split; [exact H1|]. apply MH_mono. exact H2.
  - destruct (IH (x1 :: l1) l2 a2 m2 ltac:(discriminate) N2 H2) as (b1 & b2 & k1 & k2 & HP' & -> & I1 & I2).
    exists (a1 ++ b1), b2, (m1 ++ k1), k2. split; [rewrite HP, HP', app_assoc; reflexivity|]. split; [apply app_assoc|].
    split; [|apply MH_mono; exact I2]. cbn [MH]. exists a1, b1, m1, k1. auto.
Qed.
Lemma merge_assoc {A} (u v w vw m : list A) : Lang.merge u vw m -> Lang.merge v w vw -> exists uv, Lang.merge u v uv /\ Lang.merge uv w m.
Proof.
  intros H. revert v w. induction H as [|x a b c H IH|x a b c H IH]; intros v w H'.
  - inversion H'; subst. exists []; split; constructor.
  - destruct (IH v w H') as (uv & I1 & I2). exists (x :: uv); split; constructor; assumption.
  - inversion H'; subst.
    + destruct (IH _ _ H3) as (uv & I1 & I2). exists (x :: uv); split; constructor; assumption.
    + destruct (IH _ _ H3) as (uv & I1 & I2). exists uv; split; [assumption | constructor; assumption].
Qed.
Lemma inter_split n : forall l1 l2 a m, l1 <> [] -> l2 <> [] -> MH n a m (MInterleave (l1 ++ l2)) ->
  exists a1 a2 m1 m2, Permutation a (a1 ++ a2) /\ Lang.merge m1 m2 m /\ MH n a1 m1 (MInterleave l1) /\ MH n a2 m2 (MInterleave l2).
Proof.
  induction n as [|n IH]; intros l1 l2 a m N1 N2 H; [destruct H|].
  destruct l1 as [|x l1]; [contradiction|]. cbn [app] in H. cbn [MH] in H.
  destruct (l1 ++ l2) as [|y l] eqn:E; [apply app_eq_nil in E; destruct E; contradiction|].
  destruct H as (a1 & a2 & m1 & m2 & HP & HM & H1 & H2). rewrite <- E in H2.
  destruct l1 as [|x1 l1].
  - exists a1, a2, m1, m2. split; [exact HP|]. split; [exact HM|]. split; [exact H1|]. apply MH_mono. exact H2.
  - destruct (IH (x1 :: l1) l2 a2 m2 ltac:(discriminate) N2 H2) as (b1 & b2 & k1 & k2 & HP' & HM' & I1 & I2).
    destruct (merge_assoc _ _ _ _ _ HM HM') as (uv & J1 & J2).
    exists (a1 ++ b1), b2, uv, k2. split; [rewrite HP, HP', app_assoc; reflexivity|]. split; [exact J2|].
    split; [|apply MH_mono; exact I2]. cbn [MH]. exists a1, b1, m1, k1. auto.
Qed.
End Height.

(** ** The same for [M] *)
Section Join.
Variable O : oracles.
Variable defs : list mpat.
Variable w3 : bool.
Notation M := (M O defs w3).
Lemma group_join l1 : forall l2 a a1 a2 m1 m2, l2 <> [] -> Permutation a (a1 ++ a2) -> M a1 m1 (MGroup l1) -> M a2 m2 (MGroup l2) -> M a (m1 ++ m2) (MGroup (l1 ++ l2)).
Proof.
  induction l1 as [|x l1 IH]; intros l2 a a1 a2 m1 m2 N HP H1 H2; [inversion H1|].
  inversion H1; subst.
  - destruct l2 as [|y l2]; [contradiction|]. cbn [app]. eapply M_group; eassumption.
  - cbn [app]. rewrite <- app_assoc. eapply M_group; [| eassumption | eapply IH; [exact N | reflexivity | eassumption | exact H2]].
    rewrite HP. match goal with H : Permutation a1 _ |- _ => rewrite H end. rewrite app_assoc. reflexivity.
Qed.
Lemma merge_assoc' {A} (u v w uv m : list A) : Lang.merge u v uv -> Lang.merge uv w m -> exists vw, Lang.merge v w vw /\ Lang.merge u vw m.
Proof.
  intros H H'. revert u v H. induction H' as [|x a b c H' IH|x a b c H' IH]; intros u v H.
  - inversion H; subst. exists []; split; constructor.
  - inversion H; subst.
    + destruct (IH _ _ H3) as (vw & I1 & I2). exists vw; split; [assumption | constructor; assumption].
    + destruct (IH _ _ H3) as (vw & I1 & I2). exists (x :: vw); split; constructor; assumption.
  - destruct (IH _ _ H) as (vw & I1 & I2). exists (x :: vw); split; constructor; assumption.
Qed.
Lemma inter_join l1 : forall l2 a a1 a2 m m1 m2, l2 <> [] -> Permutation a (a1 ++ a2) -> Lang.merge m1 m2 m -> M a1 m1 (MInterleave l1) -> M a2 m2 (MInterleave l2) -> M a m (MInterleave (l1 ++ l2)).
Proof.
  induction l1 as [|x l1 IH]; intros l2 a a1 a2 m m1 m2 N HP HM H1 H2; [inversion H1|].
  inversion H1; subst.
  - destruct l2 as [|y l2]; [contradiction|]. cbn [app]. eapply M_inter; eassumption.
  - cbn [app]. match goal with H : Lang.merge _ _ m1 |- _ => destruct (merge_assoc' _ _ _ _ _ H HM) as (vw & J1 & J2) end.
    eapply M_inter; [| exact J2 | eassumption | eapply IH; [exact N | reflexivity | exact J1 | eassumption | exact H2]].
    rewrite HP. match goal with H : Permutation a1 _ |- _ => rewrite H end. rewrite app_assoc. reflexivity.
Qed.
Lemma group_mem a m X : M a m X -> M a m (MGroup (seq_members X)).
Proof. intros H. destruct X; cbn [seq_members]; try (apply M_group_one; exact H). exact H. Qed.
Lemma inter_mem a m X : M a m X -> M a m (MInterleave (inter_members X)).
Proof. intros H. destruct X; cbn [inter_members]; try (apply M_inter_one; exact H). exact H. Qed.
Lemma choice_mem a m X l : incl (choice_members X) l -> M a m X -> M a m (MChoice l).
Proof.
  intros Hi H. destruct X; cbn [choice_members] in Hi; try (eapply M_choice; [apply Hi; left; reflexivity | exact H]).
  inversion H; subst. eapply M_choice; [apply Hi|]; eassumption.
Qed.
End Join.
Section HMem.
Variable O : oracles.
Variable defs : list mpat.
Variable w3 : bool.
Notation MH := (MH O defs w3).
Lemma h_group_mem n a m X : MH n a m (MGroup (seq_members X)) -> MH n a m X.
Proof. intros H. destruct X; cbn [seq_members] in H; try (destruct n as [|n]; [destruct H|]; apply (MH_mono O defs w3); exact H). exact H. Qed.
Lemma h_inter_mem n a m X : MH n a m (MInterleave (inter_members X)) -> MH n a m X.
Proof. intros H. destruct X; cbn [inter_members] in H; try (destruct n as [|n]; [destruct H|]; apply (MH_mono O defs w3); exact H). exact H. Qed.
Lemma h_choice_mem n a m X x : In x (choice_members X) -> MH n a m x -> MH (S n) a m X.
Proof.
  intros Hi H. destruct X; cbn [choice_members] in Hi; try (destruct Hi as [<-|[]]; apply (MH_mono O defs w3); exact H).
  cbn [SourceTr.MH]. exists x; auto.
Qed.
End HMem.

(** ** Combining the definitions of a name (lib.rs [merge]) *)
Fixpoint merge_all (n : str) (acc : option drule) (rs : list drule) : fres rerror (option drule) :=
  match rs with [] => fok acc | r :: rs' => fbind (SchemaCompile.merge n acc r) (fun x => merge_all n (Some x) rs') end.
Lemma merge_all_app n rs1 : forall acc rs2, merge_all n acc (rs1 ++ rs2) = fbind (merge_all n acc rs1) (fun x => merge_all n x rs2).
Proof.
  induction rs1 as [|r rs1 IH]; intros acc rs2; [reflexivity|]. cbn [app merge_all].
  destruct (SchemaCompile.merge n acc r) as [[x|e]|p|]; cbn; [apply IH | reflexivity..].
Qed.
Definition hrule (hx : method * mpat) : drule := rule_of (fst hx) (snd hx).
Definition flat1 (mem : mpat -> list mpat) (con : list mpat -> mpat) (X : mpat) (l : list mpat) : Prop := l = [X] \/ l = mem X \/ l = [con [X]].
Definition assigned (hx : list (method * mpat)) : bool := existsb (fun h => match fst h with MAssign => true | _ => false end) hx.
Definition wrap (hx : list (method * mpat)) (c : crule) (p : mpat) : drule :=
  if assigned hx then AssignCombine (Some c) p else CombineOnly c p.
Inductive combined : list (method * mpat) -> drule -> Prop :=
| Cb_assign X : combined [(MAssign, X)] (AssignCombine None X)
| Cb_choice hx ls : Forall (fun h => fst h <> MInterleaveC) hx -> Exists (fun h => fst h = MChoiceC) hx ->
    Forall2 (fun h l => flat1 choice_members MChoice (snd h) l) hx ls -> combined hx (wrap hx CrChoice (MChoice (concat ls)))
| Cb_inter hx ls : Forall (fun h => fst h <> MChoiceC) hx -> Exists (fun h => fst h = MInterleaveC) hx ->
    Forall2 (fun h l => flat1 inter_members MInterleave (snd h) l) hx ls -> combined hx (wrap hx CrInterleave (MInterleave (concat ls))).
Lemma combined_one h X : combined [(h, X)] (rule_of h X).
Proof.
  destruct h; cbn [rule_of]; [constructor| |].
  - apply (Cb_choice [(MChoiceC, X)] [[X]]); [repeat constructor; discriminate | left; reflexivity | constructor; [left; reflexivity | constructor]].
  - apply (Cb_inter [(MInterleaveC, X)] [[X]]); [repeat constructor; discriminate | left; reflexivity | constructor; [left; reflexivity | constructor]].
Qed.
Lemma assigned_app a b : assigned (a ++ b) = assigned a || assigned b.
Proof. apply existsb_app. Qed.
Lemma wrap_app hx h X c p : h <> MAssign -> wrap (hx ++ [(h, X)]) c p = wrap hx c p.
Proof. intros H. unfold wrap. rewrite assigned_app. destruct h; [contradiction | |]; cbn; rewrite orb_false_r; reflexivity. Qed.
Lemma wrap_app_assign hx X c p : wrap (hx ++ [(MAssign, X)]) c p = AssignCombine (Some c) p.
Proof. unfold wrap. rewrite assigned_app. cbn. rewrite orb_true_r. reflexivity. Qed.
Lemma choice_tail X : exists l, flat1 choice_members MChoice X l /\ forall l0, match X with MChoice l' => l0 ++ l' | _ => l0 ++ [X] end = l0 ++ l.
Proof. destruct X; eexists; (split; [|intros; reflexivity]); (left; reflexivity) || (right; left; reflexivity). Qed.
Lemma inter_tail X : exists l, flat1 inter_members MInterleave X l /\ forall l0, match X with MInterleave l' => l0 ++ l' | _ => l0 ++ [X] end = l0 ++ l.
Proof. destruct X; eexists; (split; [|intros; reflexivity]); (left; reflexivity) || (right; left; reflexivity). Qed.
Lemma concat_snoc {A} (ls : list (list A)) l : concat ls ++ l = concat (ls ++ [l]).
Proof. rewrite concat_app. cbn. rewrite app_nil_r. reflexivity. Qed.
Lemma combined_step n hx R h X R' : combined hx R -> merge1 n R (rule_of h X) = fok R' -> combined (hx ++ [(h, X)]) R'.
Proof.
  intros HC Hm. destruct HC as [Y | hx ls H1 H2 H3 | hx ls H1 H2 H3].
  - destruct h; cbn [rule_of merge1] in Hm; [discriminate| |].
    + assert (Hy : exists ly, flat1 choice_members MChoice Y ly /\ exists lx, flat1 choice_members MChoice X lx /\ R' = AssignCombine (Some CrChoice) (MChoice (ly ++ lx))).
      { destruct Y; cbn in Hm; injection Hm as <-;
        first [ eexists; split; [right; left; reflexivity | eexists; split; [left; reflexivity | reflexivity]]
              | eexists; split; [left; reflexivity | eexists; split; [right; right; reflexivity | reflexivity]]]. }
      destruct Hy as (ly & Hly & lx & Hlx & ->).
      replace (ly ++ lx) with (concat [ly; lx]) by (cbn; rewrite app_nil_r; reflexivity).
      apply (Cb_choice ([(MAssign, Y)] ++ [(MChoiceC, X)]) [ly; lx]).
      * repeat constructor; discriminate.
      * right; left; reflexivity.
      * constructor; [exact Hly|]. constructor; [exact Hlx | constructor].
    + assert (Hy : exists ly, flat1 inter_members MInterleave Y ly /\ exists lx, flat1 inter_members MInterleave X lx /\ R' = AssignCombine (Some CrInterleave) (MInterleave (ly ++ lx))).
      { destruct Y; cbn in Hm; injection Hm as <-;
        first [ eexists; split; [right; left; reflexivity | eexists; split; [left; reflexivity | reflexivity]]
              | eexists; split; [left; reflexivity | eexists; split; [right; right; reflexivity | reflexivity]]]. }
      destruct Hy as (ly & Hly & lx & Hlx & ->).
      replace (ly ++ lx) with (concat [ly; lx]) by (cbn; rewrite app_nil_r; reflexivity).
      apply (Cb_inter ([(MAssign, Y)] ++ [(MInterleaveC, X)]) [ly; lx]).
      * repeat constructor; discriminate.
      * right; left; reflexivity.
      * constructor; [exact Hly|]. constructor; [exact Hlx | constructor].
  - assert (Hh : h = MAssign /\ assigned hx = false \/ h = MChoiceC).
    { unfold wrap in Hm. destruct h, (assigned hx); cbn in Hm; try discriminate Hm; auto. }
    assert (HR : exists l, flat1 choice_members MChoice X l /\ R' = wrap (hx ++ [(h, X)]) CrChoice (MChoice (concat ls ++ l))).
    { destruct Hh as [[-> Ha]| ->].
      - unfold wrap in Hm. rewrite Ha in Hm. cbn in Hm. destruct (choice_tail X) as (l & Hl & El). rewrite El in Hm. injection Hm as <-. exists l. rewrite wrap_app_assign. auto.
      - exists [X]. split; [left; reflexivity|]. rewrite wrap_app by discriminate. unfold wrap in *. destruct (assigned hx); cbn in Hm; injection Hm as <-; reflexivity. }
    destruct HR as (l & Hl & ->). rewrite concat_snoc. apply Cb_choice.
    + apply Forall_app; split; [exact H1|]. constructor; [|constructor]. cbn. destruct Hh as [[-> _]| ->]; discriminate.
    + apply Exists_app. left; exact H2.
    + apply Forall2_app; [exact H3|]. constructor; [exact Hl | constructor].
  - assert (Hh : h = MAssign /\ assigned hx = false \/ h = MInterleaveC).
    { unfold wrap in Hm. destruct h, (assigned hx); cbn in Hm; try discriminate Hm; auto. }
    assert (HR : exists l, flat1 inter_members MInterleave X l /\ R' = wrap (hx ++ [(h, X)]) CrInterleave (MInterleave (concat ls ++ l))).
    { destruct Hh as [[-> Ha]| ->].
      - unfold wrap in Hm. rewrite Ha in Hm. cbn in Hm. destruct (inter_tail X) as (l & Hl & El). rewrite El in Hm. injection Hm as <-. exists l. rewrite wrap_app_assign. auto.
      - exists [X]. split; [left; reflexivity|]. rewrite wrap_app by discriminate. unfold wrap in *. destruct (assigned hx); cbn in Hm; injection Hm as <-; reflexivity. }
    destruct HR as (l & Hl & ->). rewrite concat_snoc. apply Cb_inter.
    + apply Forall_app; split; [exact H1|]. constructor; [|constructor]. cbn. destruct Hh as [[-> _]| ->]; discriminate.
    + apply Exists_app. left; exact H2.
    + apply Forall2_app; [exact H3|]. constructor; [exact Hl | constructor].
Qed.
Lemma merge_all_combined n hx : forall o, merge_all n None (map hrule hx) = fok o ->
  match o with None => hx = [] | Some R => combined hx R end.
Proof.
  induction hx as [|[h X] hx IH] using rev_ind; intros o H.
  - injection H as <-. reflexivity.
  - rewrite map_app, merge_all_app in H. destruct (merge_all n None (map hrule hx)) as [[o1|e]|p|] eqn:E; try discriminate H.
    specialize (IH o1 eq_refl). cbn [map merge_all fbind rbind] in H. destruct o1 as [R1|].
    + cbn [SchemaCompile.merge] in H. destruct (merge1 n R1 (hrule (h, X))) as [[R'|e]|p|] eqn:E'; try discriminate H. injection H as <-.
      eapply combined_step; [exact IH | exact E'].
    + subst hx. injection H as <-. apply combined_one.
Qed.

(** ** What a combined definition matches *)
Definition nonnil (X : mpat) : Prop := match X with MChoice [] | MGroup [] | MInterleave [] => False | _ => True end.
Inductive inter_all (P : list attr -> list item -> mpat -> Prop) : list attr -> list item -> list mpat -> Prop :=
| Ia_one a m X : P a m X -> inter_all P a m [X]
| Ia_more a a1 a2 m m1 m2 X Y l : Permutation a (a1 ++ a2) -> Lang.merge m1 m2 m -> P a1 m1 X -> inter_all P a2 m2 (Y :: l) -> inter_all P a m (X :: Y :: l).
Inductive or_all (P : mpat -> bool -> Prop) : list mpat -> bool -> Prop :=
| Oa_one X b : P X b -> or_all P [X] b
| Oa_more X Y l b1 b2 : P X b1 -> or_all P (Y :: l) b2 -> or_all P (X :: Y :: l) (b1 || b2).
Lemma inter_all_impl (P Q : list attr -> list item -> mpat -> Prop) l : (forall a m X, In X l -> P a m X -> Q a m X) ->
  forall a m, inter_all P a m l -> inter_all Q a m l.
Proof.
  intros H a m HI. induction HI as [a m X HX|a a1 a2 m m1 m2 X Y l HP HM HX HI IH]; [apply Ia_one; apply H; [left; reflexivity | exact HX]|].
  eapply Ia_more; [exact HP | exact HM | apply H; [left; reflexivity | exact HX] | apply IH]. intros; apply H; [right; assumption | assumption].
Qed.
Lemma flat_nonnil mem con X l : (mem = choice_members /\ con = MChoice \/ mem = inter_members /\ con = MInterleave) -> nonnil X -> flat1 mem con X l -> l <> [].
Proof.
  intros [[-> ->]|[-> ->]] HX [->|[->| ->]] E; try discriminate E; (destruct X as [k|k|k| | | | | | | | | | | | | ]; cbn in E; try discriminate E; subst k; exact HX).
Qed.
Lemma flats_nonnil mem con (hx : list (method * mpat)) ls : (mem = choice_members /\ con = MChoice \/ mem = inter_members /\ con = MInterleave) ->
  Forall (fun h => nonnil (snd h)) hx -> Forall2 (fun h l => flat1 mem con (snd h) l) hx ls -> hx <> [] -> concat ls <> [].
Proof.
  intros Hc HN HF H. destruct HF as [|h l hx ls Hl HF]; [contradiction|]. cbn. intros E. apply app_eq_nil in E. destruct E as [E _].
  apply (flat_nonnil mem con (snd h) l Hc); [inversion HN; assumption | exact Hl | exact E].
Qed.

Section Combined.
Variable O : oracles.
Variable defs : list mpat.
Variable w3 : bool.
Notation MH := (MH O defs w3).
Notation M := (Spec.M O defs w3).
Notation XH := (XH O defs).
Notation XM := (Spec.XM O defs).

Lemma flat_choice_h n a m X l z : flat1 choice_members MChoice X l -> In z l -> MH n a m z -> MH (S n) a m X.
Proof.
  intros [->|[->| ->]] Hi Hz.
  - destruct Hi as [<-|[]]. apply MH_mono; exact Hz.
  - eapply h_choice_mem; eassumption.
  - destruct Hi as [<-|[]]. destruct n as [|n]; [destruct Hz|]. cbn [SourceTr.MH] in Hz. destruct Hz as (x & [<-|[]] & Hx). apply MH_mono, MH_mono; exact Hx.
Qed.
Lemma flat_inter_h n a m X l : flat1 inter_members MInterleave X l -> MH n a m (MInterleave l) -> MH n a m X.
Proof.
  intros [->|[->| ->]] H.
  - destruct n as [|n]; [destruct H|]. apply MH_mono. exact H.
  - apply h_inter_mem; exact H.
  - destruct n as [|n]; [destruct H|]. cbn [SourceTr.MH] in H. destruct n as [|n]; [destruct H|]. apply MH_mono, MH_mono. exact H.
Qed.
Lemma flats_inter_h n : forall (hx : list (method * mpat)) ls a m, Forall2 (fun h l => flat1 inter_members MInterleave (snd h) l) hx ls -> Forall (fun h => nonnil (snd h)) hx ->
  hx <> [] -> MH n a m (MInterleave (concat ls)) -> inter_all (MH n) a m (map snd hx).
Proof.
  induction hx as [|h hx IH]; intros ls a m HF HN Hne H; [contradiction|]. inversion HF as [|? l ? ls' Hl HF']; subst. inversion HN as [|? ? HN1 HN2]; subst.
  destruct hx as [|h' hx].
  - inversion HF'; subst. cbn in H. rewrite app_nil_r in H. apply Ia_one. eapply flat_inter_h; eassumption.
  - cbn [concat] in H. apply inter_split in H.
    + destruct H as (a1 & a2 & m1 & m2 & HP & HM & H1 & H2). eapply Ia_more; [exact HP | exact HM | eapply flat_inter_h; eassumption|].
      apply (IH ls' a2 m2 HF' HN2); [discriminate | exact H2].
    + apply (flat_nonnil inter_members MInterleave (snd h)); auto.
    + apply (flats_nonnil inter_members MInterleave (h' :: hx)); auto; discriminate.
Qed.
Lemma combined_h n hx R a m : combined hx R -> Forall (fun h => nonnil (snd h)) hx -> MH n a m (rule_pattern R) ->
  Forall (fun h => fst h <> MInterleaveC) hx /\ (exists h, In h hx /\ MH n a m (snd h)) \/
  Forall (fun h => fst h <> MChoiceC) hx /\ inter_all (MH n) a m (map snd hx).
Proof.
  intros HC HN H. destruct HC as [X|hx ls H1 H2 H3|hx ls H1 H2 H3].
  - left. split; [repeat constructor; discriminate|]. exists (MAssign, X). split; [left; reflexivity | exact H].
  - left. split; [exact H1|].
    assert (E : rule_pattern (wrap hx CrChoice (MChoice (concat ls))) = MChoice (concat ls)) by (unfold wrap; destruct (assigned hx); reflexivity). rewrite E in H.
    destruct n as [|n]; [destruct H|]. cbn [SourceTr.MH] in H. destruct H as (z & Hz & Hm). clear HN H1 H2 E.
    induction H3 as [|h l hx ls Hl H3 IH]; [destruct Hz|]. cbn in Hz. apply in_app_iff in Hz. destruct Hz as [Hz|Hz].
    + exists h. split; [left; reflexivity|]. eapply flat_choice_h; eassumption.
    + destruct (IH Hz) as (h' & Hi & Hh). exists h'. split; [right; exact Hi | exact Hh].
  - right. split; [exact H1|].
    assert (E : rule_pattern (wrap hx CrInterleave (MInterleave (concat ls))) = MInterleave (concat ls)) by (unfold wrap; destruct (assigned hx); reflexivity). rewrite E in H.
    eapply flats_inter_h; try eassumption. intros ->. inversion H2.
Qed.
Lemma flat_choice_m a m X l L : flat1 choice_members MChoice X l -> incl l L -> M a m X -> M a m (MChoice L).
Proof.
  intros [->|[->| ->]] Hi H.
  - eapply M_choice; [apply Hi; left; reflexivity | exact H].
  - eapply choice_mem; eassumption.
  - eapply M_choice; [apply Hi; left; reflexivity|]. eapply M_choice; [left; reflexivity | exact H].
Qed.
Lemma flat_inter_m a m X l : flat1 inter_members MInterleave X l -> M a m X -> M a m (MInterleave l).
Proof.
  intros [->|[->| ->]] H; [apply M_inter_one; exact H | apply inter_mem; exact H | apply M_inter_one, M_inter_one; exact H].
Qed.
Lemma combined_choice hx R a m h : combined hx R -> Forall (fun h => fst h <> MInterleaveC) hx -> In h hx -> M a m (snd h) -> M a m (rule_pattern R).
Proof.
  intros HC HF Hi H. destruct HC as [X|hx ls H1 H2 H3|hx ls H1 H2 H3].
  - destruct Hi as [<-|[]]. exact H.
  - assert (E : rule_pattern (wrap hx CrChoice (MChoice (concat ls))) = MChoice (concat ls)) by (unfold wrap; destruct (assigned hx); reflexivity). rewrite E. clear E HF H1 H2.
    assert (HL : exists l, flat1 choice_members MChoice (snd h) l /\ incl l (concat ls)).
    { induction H3 as [|h' l hx ls Hl H3 IH]; [destruct Hi|]. destruct Hi as [->|Hi].
      - exists l. split; [exact Hl|]. cbn. apply incl_appl, incl_refl.
      - destruct (IH Hi) as (l' & H1 & H2). exists l'. split; [exact H1|]. cbn. apply incl_appr; exact H2. }
    destruct HL as (l & H1 & H2). eapply flat_choice_m; eassumption.
  - exfalso. rewrite Exists_exists in H2. destruct H2 as (x & Hx & E). rewrite Forall_forall in HF. exact (HF x Hx E).
Qed.
Lemma combined_inter hx R a m : combined hx R -> Forall (fun h => nonnil (snd h)) hx -> Forall (fun h => fst h <> MChoiceC) hx -> inter_all M a m (map snd hx) -> M a m (rule_pattern R).
Proof.
  intros HC HN HF HI. destruct HC as [X|hx ls H1 H2 H3|hx ls H1 H2 H3].
  - inversion HI; subst. assumption.
  - exfalso. rewrite Exists_exists in H2. destruct H2 as (x & Hx & E). rewrite Forall_forall in HF. exact (HF x Hx E).
  - assert (E : rule_pattern (wrap hx CrInterleave (MInterleave (concat ls))) = MInterleave (concat ls)) by (unfold wrap; destruct (assigned hx); reflexivity). rewrite E. clear E HF H1 H2.
    revert ls H3 a m HI. induction hx as [|h hx IH]; intros ls H3 a m HI; [inversion HI|]. inversion H3 as [|? l ? ls' Hl HF']; subst. inversion HN as [|? ? HN1 HN2]; subst.
    destruct hx as [|h' hx].
    + inversion HF'; subst. cbn. rewrite app_nil_r. cbn in HI. inversion HI; subst. eapply flat_inter_m; eassumption.
    + cbn in HI. inversion HI; subst. cbn [concat]. eapply inter_join; [| eassumption | eassumption | eapply flat_inter_m; eassumption |].
      * apply (flats_nonnil inter_members MInterleave (h' :: hx)); auto; discriminate.
      * apply (IH HN2 ls' HF'). cbn. assumption.
Qed.

(** except patterns *)
Lemma xh_split n : forall l1 l2 s b, l1 <> [] -> l2 <> [] -> XH n (MChoice (l1 ++ l2)) s b ->
  exists b1 b2, XH n (MChoice l1) s b1 /\ XH n (MChoice l2) s b2 /\ b = b1 || b2.
Proof.
  induction n as [|n IH]; intros l1 l2 s b N1 N2 H; [destruct H|].
  destruct l1 as [|x l1]; [contradiction|]. cbn [app] in H. cbn [SourceTr.XH] in H.
  destruct (l1 ++ l2) as [|y l] eqn:E; [apply app_eq_nil in E; destruct E; contradiction|].
  destruct H as (b1 & b2 & H1 & H2 & ->). rewrite <- E in H2.
  destruct l1 as [|x1 l1].
  - exists b1, b2. split; [exact H1|]. split; [apply XH_mono; exact H2 | reflexivity].
  - destruct (IH (x1 :: l1) l2 s b2 ltac:(discriminate) N2 H2) as (c1 & c2 & I1 & I2 & ->).
    exists (b1 || c1), c2. split; [|split; [apply XH_mono; exact I2 | apply orb_assoc]]. cbn [SourceTr.XH]. exists b1, c1. auto.
Qed.
Lemma xm_join l1 : forall l2 s b1 b2, l2 <> [] -> XM (MChoice l1) s b1 -> XM (MChoice l2) s b2 -> XM (MChoice (l1 ++ l2)) s (b1 || b2).
Proof.
  induction l1 as [|x l1 IH]; intros l2 s b1 b2 N H1 H2; [inversion H1|]. inversion H1; subst.
  - destruct l2 as [|y l2]; [contradiction|]. cbn [app]. apply XM_choice; assumption.
  - cbn [app]. rewrite <- orb_assoc. apply XM_choice; [assumption|]. apply (IH l2); assumption.
Qed.
Lemma xh_mem n X s b : XH n (MChoice (choice_members X)) s b -> XH n X s b.
Proof. intros H. destruct X; cbn [choice_members] in H; try (destruct n as [|n]; [destruct H|]; apply XH_mono; exact H). exact H. Qed.
Lemma xm_mem X s b : XM X s b -> XM (MChoice (choice_members X)) s b.
Proof. intros H. destruct X; cbn [choice_members]; try (apply XM_choice_one; exact H). exact H. Qed.
Lemma flat_xh n X l s b : flat1 choice_members MChoice X l -> XH n (MChoice l) s b -> XH n X s b.
Proof.
  intros [->|[->| ->]] H; [|apply xh_mem; exact H|]; (destruct n as [|n]; [destruct H|]); apply XH_mono; [exact H|].
  cbn [SourceTr.XH] in H. destruct n as [|n]; [destruct H|]. apply XH_mono; exact H.
Qed.
Lemma flat_xm X l s b : flat1 choice_members MChoice X l -> XM X s b -> XM (MChoice l) s b.
Proof. intros [->|[->| ->]] H; [apply XM_choice_one; exact H | apply xm_mem; exact H | apply XM_choice_one, XM_choice_one; exact H]. Qed.
Lemma combined_xh n hx R s b : combined hx R -> Forall (fun h => nonnil (snd h)) hx -> XH n (rule_pattern R) s b ->
  Forall (fun h => fst h <> MInterleaveC) hx /\ or_all (fun X b => XH n X s b) (map snd hx) b.
Proof.
  intros HC HN H. destruct HC as [X|hx ls H1 H2 H3|hx ls H1 H2 H3].
  - split; [repeat constructor; discriminate|]. apply Oa_one. exact H.
  - split; [exact H1|].
    assert (E : rule_pattern (wrap hx CrChoice (MChoice (concat ls))) = MChoice (concat ls)) by (unfold wrap; destruct (assigned hx); reflexivity). rewrite E in H.
    assert (Hne : hx <> []) by (intros ->; inversion H2). clear E H1 H2. revert ls H3 b H. induction hx as [|h hx IH]; intros ls H3 b H; [contradiction|].
    inversion H3 as [|? l ? ls' Hl HF']; subst. inversion HN as [|? ? HN1 HN2]; subst. destruct hx as [|h' hx].
    + inversion HF'; subst. cbn in H. rewrite app_nil_r in H. apply Oa_one. eapply flat_xh; eassumption.
    + cbn [concat] in H. apply xh_split in H.
      * destruct H as (b1 & b2 & I1 & I2 & ->). cbn. apply Oa_more; [eapply flat_xh; eassumption|]. apply (IH HN2 ltac:(discriminate) ls' HF'); exact I2.
      * apply (flat_nonnil choice_members MChoice (snd h)); auto.
      * apply (flats_nonnil choice_members MChoice (h' :: hx)); auto; discriminate.
  - assert (E : rule_pattern (wrap hx CrInterleave (MInterleave (concat ls))) = MInterleave (concat ls)) by (unfold wrap; destruct (assigned hx); reflexivity). rewrite E in H.
    destruct n; destruct H.
Qed.
Lemma combined_xm hx R s b : combined hx R -> Forall (fun h => nonnil (snd h)) hx -> Forall (fun h => fst h <> MInterleaveC) hx ->
  or_all (fun X b => XM X s b) (map snd hx) b -> XM (rule_pattern R) s b.
Proof.
  intros HC HN HF HO. destruct HC as [X|hx ls H1 H2 H3|hx ls H1 H2 H3].
  - inversion HO; subst. assumption.
  - assert (E : rule_pattern (wrap hx CrChoice (MChoice (concat ls))) = MChoice (concat ls)) by (unfold wrap; destruct (assigned hx); reflexivity). rewrite E. clear E HF H1 H2.
    revert ls H3 b HO. induction hx as [|h hx IH]; intros ls H3 b HO; [inversion HO|]. inversion H3 as [|? l ? ls' Hl HF']; subst. inversion HN as [|? ? HN1 HN2]; subst.
    destruct hx as [|h' hx].
    + inversion HF'; subst. cbn. rewrite app_nil_r. cbn in HO. inversion HO; subst. eapply flat_xm; eassumption.
    + cbn in HO. inversion HO; subst. cbn [concat]. apply xm_join; [| eapply flat_xm; eassumption | apply (IH HN2 ls' HF'); assumption].
      apply (flats_nonnil choice_members MChoice (h' :: hx)); auto; discriminate.
  - exfalso. rewrite Exists_exists in H2. destruct H2 as (x & Hx & E). rewrite Forall_forall in HF. exact (HF x Hx E).
Qed.
Lemma combined_nonnil hx R : combined hx R -> Forall (fun h => nonnil (snd h)) hx -> nonnil (rule_pattern R).
Proof.
  intros HC HN. destruct HC as [X|hx ls H1 H2 H3|hx ls H1 H2 H3].
  - inversion HN; assumption.
  - assert (E : rule_pattern (wrap hx CrChoice (MChoice (concat ls))) = MChoice (concat ls)) by (unfold wrap; destruct (assigned hx); reflexivity). rewrite E.
    pose proof (flats_nonnil choice_members MChoice hx ls ltac:(auto) HN H3). cbn. destruct (concat ls); [apply H; [intros ->; inversion H2 | reflexivity] | exact I].
  - assert (E : rule_pattern (wrap hx CrInterleave (MInterleave (concat ls))) = MInterleave (concat ls)) by (unfold wrap; destruct (assigned hx); reflexivity). rewrite E.
    pose proof (flats_nonnil inter_members MInterleave hx ls ltac:(auto) HN H3). cbn. destruct (concat ls); [apply H; [intros ->; inversion H2 | reflexivity] | exact I].
Qed.
End Combined.
