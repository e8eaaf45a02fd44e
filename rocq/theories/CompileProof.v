(** * CompileProof: the compiled store represents the schema
    (validator lib.rs:558-616, 197-239). *)
From Verif Require Import Base Datatype Store Deriv Events Lang LangFacts Wp Compile Schema.
Open Scope monad_scope.

Section CP.
Variable O : oracles.
Variable allowed : panic -> Prop.
Variable defs : list mpat.
Variable T : nameclass -> ctype.
Notation body := (body defs).
Notation Nul := (Nul defs).
Notation na_able := (na_able defs).
Notation empty_able := (empty_able defs).
Notation alias := (alias defs).
Notation reach := (reach defs).
Notation good := (good defs).
Notation more_ok := (more_ok defs).
Notation SOK := (SOK O allowed defs T).
Notation TYP := (TYP defs).
Notation at_ st i p := (nth_error (pats st) i = Some p) (only parsing).

(** ** Binary view of the n-ary operators *)
Inductive nop := OpC | OpG | OpI.
Definition mkl (op : nop) (l : list mpat) : mpat :=
  match op with OpC => MChoice l | OpG => MGroup l | OpI => MInterleave l end.
Definition mkp (op : nop) (a b : pid) (n : bool) : pat :=
  match op with OpC => PChoice a b n | OpG => PGroup a b n | OpI => PInterleave a b n end.
Definition mko (op : nop) : pid -> pid -> M pid :=
  match op with OpC => choice | OpG => group | OpI => interleave end.
Definition nulop (op : nop) (A B : Prop) : Prop := match op with OpC => A \/ B | _ => A /\ B end.
Lemma Nul_mkl op x y l : Nul (mkl op (x :: y :: l)) <-> nulop op (Nul x) (Nul (mkl op (y :: l))).
Proof.
  destruct op; cbn; split.
  - intros H; inversion H; subst; auto.
  - intros [H|H]; [apply Nul_ch1 | apply Nul_ch2]; exact H.
  - intros H; inversion H; subst; auto.
  - intros [H1 H2]; apply Nul_gr; assumption.
  - intros H; inversion H; subst; auto.
  - intros [H1 H2]; apply Nul_in; assumption.
Qed.
Lemma Nul_mkl1 op x : Nul (mkl op [x]) <-> Nul x.
Proof.
  destruct op; cbn; split; intros H; try (constructor; exact H);
    inversion H; subst; auto; match goal with X : Schema.Nul _ _ |- _ => inversion X end.
Qed.

(** ** Representation *)
Definition lref (st : store) (r : nat) : option pid := lookup_nat r (refs st).
Definition sub (st st' : store) : Prop :=
  (forall i q, at_ st i q -> is_placeholder q = false -> at_ st' i q) /\
  (forall r i, lref st r = Some i -> lref st' r = Some i).
Definition later (st st' : store) : Prop :=
  ext st st' /\ (forall r i, lref st r = Some i -> lref st' r = Some i).
Lemma later_sub st st' : later st st' -> sub st st'.
Proof. intros [E R]; split; [|exact R]. intros i q H _; eapply ext_nth; eassumption. Qed.
Lemma later_refl st : later st st.
Proof. split; [apply ext_refl | auto]. Qed.
Lemma later_trans a b c : later a b -> later b c -> later a c.
Proof. intros [E1 R1] [E2 R2]; split; [eapply ext_trans; eassumption | auto]. Qed.

Definition flag (e : bool) (N : Prop) (n : bool) : Prop := (n = true -> N) /\ (e = true -> N -> n = true).
Definition opC (st : store) (e : bool) (N : Prop) (op : nop) (id a b : pid) : Prop :=
  (exists n, at_ st id (mkp op a b n) /\ flag e N n) \/
  match op with
  | OpC => at_ st a PNotAllowed /\ id = b \/ at_ st b PNotAllowed /\ id = a \/ a = b /\ id = a
  | _ => (at_ st a PNotAllowed \/ at_ st b PNotAllowed) /\ at_ st id PNotAllowed \/
         at_ st a PEmpty /\ id = b \/ at_ st b PEmpty /\ id = a
  end.

Fixpoint Repr (st : store) (e : bool) (X : mpat) (id : pid) {struct X} : Prop :=
  match X with
  | MChoice l => (fix go (l : list mpat) (id : pid) : Prop :=
      match l with
      | [] => False
      | x :: l' => match l' with
                   | [] => Repr st e x id
                   | _ => exists a b, Repr st e x a /\ go l' b /\ opC st e (Nul (MChoice l)) OpC id a b
                   end
      end) l id
  | MGroup l => (fix go (l : list mpat) (id : pid) : Prop :=
      match l with
      | [] => False
      | x :: l' => match l' with
                   | [] => Repr st e x id
                   | _ => exists a b, Repr st e x a /\ go l' b /\ opC st e (Nul (MGroup l)) OpG id a b
                   end
      end) l id
  | MInterleave l => (fix go (l : list mpat) (id : pid) : Prop :=
      match l with
      | [] => False
      | x :: l' => match l' with
                   | [] => Repr st e x id
                   | _ => exists a b, Repr st e x a /\ go l' b /\ opC st e (Nul (MInterleave l)) OpI id a b
                   end
      end) l id
  | MMixed p => exists a t, Repr st e p a /\ at_ st t PText /\ opC st e (Nul p) OpI id a t
  | MEmpty => at_ st id PEmpty
  | MText => at_ st id PText
  | MNotAllowed => at_ st id PNotAllowed
  | MOptional p => exists a t, Repr st e p a /\ at_ st t PEmpty /\ opC st e True OpC id a t
  | MZeroOrMore p => exists a o n t, Repr st true p a /\ at_ st o (POneOrMore a n) /\ flag e (Nul p) n /\
                       at_ st t PEmpty /\ opC st e True OpC id o t
  | MOneOrMore p => exists a n, Repr st true p a /\ at_ st id (POneOrMore a n) /\ flag e (Nul p) n
  | MAttribute nc p => exists a, Repr st true p a /\ at_ st id (PAttribute nc a)
  | MElement nc p => exists a, Repr st false p a /\ at_ st id (PElement nc a)
  | MRef r => lref st r = Some id
  | MValue v => at_ st id (PDatatypeValue v)
  | MData d None => at_ st id (PDatatype d)
  | MData d (Some x) => exists a, Repr st false x a /\ at_ st id (PDatatypeExcept d a)
  | MList p => exists a, Repr st true p a /\ at_ st id (PList a)
  end.
Lemma Repr_1 st e op x id : Repr st e (mkl op [x]) id = Repr st e x id.
Proof. destruct op; reflexivity. Qed.
Lemma Repr_2 st e op x y l id : Repr st e (mkl op (x :: y :: l)) id =
  (exists a b, Repr st e x a /\ Repr st e (mkl op (y :: l)) b /\ opC st e (Nul (mkl op (x :: y :: l))) op id a b).
Proof. destruct op; reflexivity. Qed.
Lemma Repr_0 st e op id : Repr st e (mkl op []) id = False.
Proof. destruct op; reflexivity. Qed.

Lemma opC_sub st st' e N op id a b : sub st st' -> opC st e N op id a b -> opC st' e N op id a b.
Proof.
  intros [S _] [(n & H & Hf)|H].
  - left; exists n; split; [apply S; [exact H | destruct op; reflexivity] | exact Hf].
  - right; destruct op.
    + destruct H as [[H ->]|[[H ->]|H]]; auto.
    + destruct H as [[[H|H] H']|[[H ->]|[H ->]]]; auto 6.
    + destruct H as [[[H|H] H']|[[H ->]|[H ->]]]; auto 6.
Qed.
Lemma Repr_sub st st' : sub st st' -> forall X e id, Repr st e X id -> Repr st' e X id.
Proof.
  intros S; pose proof S as [S1 S2].
  assert (HL : forall op l, Forall (fun X => forall e id, Repr st e X id -> Repr st' e X id) l ->
     forall e id, Repr st e (mkl op l) id -> Repr st' e (mkl op l) id).
  { intros op l Hl e. induction Hl as [|x l Hx Hl IH]; intros id; [rewrite !Repr_0; auto|].
    destruct l as [|y l]; [rewrite !Repr_1; apply Hx|]. rewrite !Repr_2. intros (a & b & H1 & H2 & H3).
    exists a, b. split; [apply Hx; exact H1|]. split; [apply IH; exact H2|]. eapply opC_sub; eassumption. }
  refine (mpat_ind' _ _ _ _ _ _ _ _ _ _ _ _ _ _ _ _ _).
  - intros l H; exact (HL OpC l H).
  - intros l H; exact (HL OpI l H).
  - intros l H; exact (HL OpG l H).
  - intros p IH e id (a & t & H1 & H2 & H3). exists a, t. split; [auto|]. split; [auto|]. eapply opC_sub; eassumption.
  - intros e id H; cbn in *; auto.
  - intros e id H; cbn in *; auto.
  - intros e id H; cbn in *; auto.
  - intros p IH e id (a & t & H1 & H2 & H3). exists a, t. split; [auto|]. split; [auto|]. eapply opC_sub; eassumption.
  - intros p IH e id (a & o & n & t & H1 & H2 & H3 & H4 & H5). exists a, o, n, t.
    split; [auto|]. split; [auto|]. split; [exact H3|]. split; [auto|]. eapply opC_sub; eassumption.
  - intros p IH e id (a & n & H1 & H2 & H3). exists a, n. auto.
  - intros nc p IH e id (a & H1 & H2). exists a. auto.
  - intros nc p IH e id (a & H1 & H2). exists a. auto.
  - intros r e id H; cbn in *; auto.
  - intros v e id H; cbn in *; auto.
  - intros d [x|] IH e id; cbn; [|auto]. intros (a & H1 & H2). exists a. specialize (IH x eq_refl). auto.
  - intros p IH e id (a & H1 & H2). exists a. auto.
Qed.

(** ** good is inherited *)
Lemma good_ref r X : body r = Some X -> good (MRef r) -> good X.
Proof. intros Hb H r' Y Hu; apply H. eapply ur_trans; eassumption. Qed.
Lemma ureach_mkl op x l r : In x l -> ureach defs x r -> ureach defs (mkl op l) r.
Proof. destruct op; [apply ur_ch | apply ur_gr | apply ur_in]. Qed.
Lemma good_hd op x l : good (mkl op (x :: l)) -> good x.
Proof. intros H r Y Hu; apply H. eapply ureach_mkl; [left; reflexivity | exact Hu]. Qed.
Lemma good_tl op x l : good (mkl op (x :: l)) -> good (mkl op l).
Proof.
  intros H r Y Hu; apply H. destruct op; inversion Hu; subst;
    [eapply ur_ch | eapply ur_gr | eapply ur_in]; try (right; eassumption); assumption.
Qed.
Lemma more_ok_repr st X id : (good X -> Repr st true X id) -> Repr st false X id -> more_ok X -> Repr st true X id.
Proof. intros H1 H2 [H|(r & Y & -> & _)]; [auto | exact H2]. Qed.

(** ** What is known about a compiled pattern *)
Definition Fact (st : store) (X : mpat) (id : pid) : Prop :=
  Repr st false X id /\ (good X -> Repr st true X id) /\
  (nul st id = true -> Nul X) /\ (good X -> Nul X -> nul st id = true) /\
  (at_ st id PNotAllowed -> na_able X) /\ (at_ st id PEmpty -> empty_able X) /\
  (forall m, at_ st id (PPlaceholder m) -> alias X m).
Lemma Fact_eq st st' X id q : sub st st' -> at_ st id q -> at_ st' id q -> Fact st X id -> Fact st' X id.
Proof.
  intros S Hq Hq' (H1 & H2 & H3 & H4 & H5 & H6 & H7).
  assert (Hn : nul st' id = nul st id) by (unfold nul; rewrite Hq, Hq'; reflexivity).
  assert (Ha : forall p, at_ st' id p -> at_ st id p) by (intros p Hp; rewrite Hq; rewrite Hq' in Hp; exact Hp).
  unfold Fact. rewrite Hn. split; [eapply Repr_sub; eassumption|]. split; [intros Hg; eapply Repr_sub; eauto|].
  split; [exact H3|]. split; [exact H4|]. split; [auto|]. split; [auto|]. intros m Hm; auto.
Qed.
Lemma Fact_later st st' X id : later st st' -> inr_ st id -> Fact st X id -> Fact st' X id.
Proof.
  intros HL Hi. destruct (inr_nth _ _ Hi) as [q Hq]. eapply Fact_eq; [apply later_sub; exact HL | exact Hq|].
  eapply ext_nth; [apply HL | exact Hq].
Qed.

Definition Done (st : store) (r : nat) (i : pid) : Prop :=
  exists j X q, body r = Some X /\ Fact st X j /\ at_ st j q /\ at_ st i q /\ is_placeholder q = false.
Lemma Done_sub st st' r i : sub st st' -> Done st r i -> Done st' r i.
Proof.
  intros S (j & X & q & Hb & HF & Hj & Hi & Hq). pose proof S as [S1 _].
  exists j, X, q. split; [exact Hb|]. split; [eapply Fact_eq; [exact S | exact Hj | apply S1; assumption | exact HF]|]. auto.
Qed.

Record Inv (st : store) (P : list nat) : Prop := {
  I_ref : forall r i, lref st r = Some i -> (In r P /\ at_ st i (PPlaceholder r)) \/ (~ In r P /\ Done st r i);
  I_prog : forall r, In r P -> exists i, lref st r = Some i;
  I_ph : forall i r, at_ st i (PPlaceholder r) -> In r P /\ lref st r = Some i;
  I_closed : forall id p c, at_ st id p -> In c (children p) -> c < length (pats st);
  I_memo : forall p id, lookup_pat p (memo st) = Some id ->
           at_ st id p \/ exists r, p = PPlaceholder r /\ lref st r <> None;
  I_elem : forall i nc c, at_ st i (PElement nc c) -> exists X, Repr st false X c /\ SOK X /\ exists j, TYP j (T nc) X
}.

Lemma Inv_empty : Inv empty_store [].
Proof.
  constructor.
  - intros r i H; discriminate H.
  - intros r [].
  - intros i r H; destruct i; discriminate H.
  - intros i p c H; destruct i; discriminate H.
  - intros p i H; discriminate H.
  - intros i nc c H; destruct i; discriminate H.
Qed.

(** ** A calculus for compilation *)
Definition cw {A} (f : nat -> M A) (st : store) (Q : A -> store -> Prop) : Prop :=
  exists n r, (forall m, n <= m -> f m st = r) /\
    match r with Ok (a, st') => Q a st' | Panic p => p = PTooManyPatterns | OutOfFuel => False end.
Lemma cw_ret {A} (a : A) st (Q : A -> store -> Prop) : Q a st -> cw (fun _ => ret a) st Q.
Proof. intros H; exists 0, (Ok (a, st)); split; [reflexivity | exact H]. Qed.
Lemma cw_bind {A B} (f : nat -> M A) (g : nat -> A -> M B) st (Q : A -> store -> Prop) (R : B -> store -> Prop) :
  cw f st Q -> (forall a st', Q a st' -> cw (fun m => g m a) st' R) -> cw (fun m => bind (f m) (g m)) st R.
Proof.
  intros (n & r & H & Hr) HQ. destruct r as [[a st']|p|]; [| |contradiction].
  - destruct (HQ a st' Hr) as (n2 & r2 & H2 & Hr2). exists (n + n2), r2; split; [|exact Hr2].
    intros m Hm. unfold bind. rewrite (H m) by lia. apply H2; lia.
  - exists n, (Panic p); split; [|exact Hr]. intros m Hm; unfold bind; rewrite (H m Hm); reflexivity.
Qed.
Lemma cw_S {A} (f : nat -> M A) st Q : cw (fun m => f (S m)) st Q -> cw f st Q.
Proof. intros (n & r & H & Hr); exists (S n), r; split; [|exact Hr]. intros [|m] Hm; [lia | apply H; lia]. Qed.
Lemma cw_mono {A} (f : nat -> M A) st (Q Q' : A -> store -> Prop) : cw f st Q -> (forall a st', Q a st' -> Q' a st') -> cw f st Q'.
Proof. intros (n & r & H & Hr) HQ; exists n, r; split; [exact H|]. destruct r as [[a st']| |]; auto. Qed.
Lemma cw_patt {B} (g : nat -> pat -> M B) st i p R : at_ st i p -> cw (fun m => g m p) st R -> cw (fun m => bind (patt i) (g m)) st R.
Proof.
  intros Hp (n & r & H & Hr); exists n, r; split; [|exact Hr]. intros m Hm. unfold bind, patt. rewrite Hp. apply H; exact Hm.
Qed.

Lemma nth_snoc {A} (l : list A) x i q : nth_error (l ++ [x]) i = Some q -> nth_error l i = Some q \/ i = length l /\ q = x.
Proof.
  intros H. destruct (Nat.lt_ge_cases i (length l)) as [Hl|Hl].
  - left. rewrite nth_error_app1 in H; assumption.
  - right. rewrite nth_error_app2 in H by exact Hl. destruct (i - length l) as [|k] eqn:E.
    + cbn in H; injection H as ->. split; [lia | reflexivity].
    + destruct k; discriminate H.
Qed.
Lemma lookup_pat_cons p q i m : lookup_pat p ((q, i) :: m) = if pat_eq_dec q p then Some i else lookup_pat p m.
Proof. reflexivity. Qed.

Definition elem_fact (st : store) (p : pat) : Prop :=
  forall nc c, p = PElement nc c -> exists X, Repr st false X c /\ SOK X /\ exists j, TYP j (T nc) X.
Lemma cw_push p st P : Inv st P -> (forall c, In c (children p) -> inr_ st c) -> is_placeholder p = false -> elem_fact st p ->
  cw (fun _ => push p) st (fun id st' => Inv st' P /\ later st st' /\ at_ st' id p).
Proof.
  intros HI Hc Hp He. destruct HI as [I1 I2 I3 I4 I5 I6].
  destruct (max_patterns <? N.of_nat (length (pats st)))%N eqn:Em.
  { exists 0, (Panic PTooManyPatterns); split; [|reflexivity]. intros m _; unfold push; rewrite Em; reflexivity. }
  destruct (lookup_pat p (memo st)) as [i|] eqn:El.
  { exists 0, (Ok (i, st)); split; [intros m _; unfold push; rewrite Em, El; reflexivity|].
    split; [constructor; assumption|]. split; [apply later_refl|]. destruct (I5 _ _ El) as [H|(r & -> & _)]; [exact H | discriminate Hp]. }
  exists 0; eexists; split; [intros m _; unfold push; rewrite Em, El; reflexivity|].
  set (st' := Store (pats st ++ [p]) ((p, length (pats st)) :: memo st) (refs st)).
  assert (HL : later st st') by (split; [exists [p]; reflexivity | auto]).
  pose proof (later_sub _ _ HL) as HS.
  assert (Hlast : at_ st' (length (pats st)) p) by (cbn; rewrite nth_error_app2, Nat.sub_diag by lia; reflexivity).
  split; [|split; [exact HL | exact Hlast]]. constructor.
  - intros r i H. destruct (I1 r i H) as [[Ha Hb]|[Ha Hb]]; [left | right]; (split; [exact Ha|]).
    + eapply ext_nth; [apply HL | exact Hb].
    + eapply Done_sub; eassumption.
  - exact I2.
  - intros i r H. cbn in H. apply nth_snoc in H. destruct H as [H|[_ <-]]; [exact (I3 i r H) | discriminate Hp].
  - intros i q c H Hin. cbn in *. rewrite app_length; cbn. apply nth_snoc in H. destruct H as [H| [_ ->]].
    + specialize (I4 i q c H Hin). lia.
    + specialize (Hc c Hin). unfold inr_ in Hc. lia.
  - intros q i H. cbn [memo st'] in H. rewrite lookup_pat_cons in H. destruct (pat_eq_dec p q) as [<-|Hne].
    + injection H as <-. left; exact Hlast.
    + destruct (I5 q i H) as [H'|H']; [left; eapply ext_nth; [apply HL | exact H'] | right; exact H'].
  - intros i nc c H. cbn in H. apply nth_snoc in H.
    assert (HX : exists X, Repr st false X c /\ SOK X /\ exists j, TYP j (T nc) X).
    { destruct H as [H|[_ <-]]; [exact (I6 i nc c H) | exact (He nc c eq_refl)]. }
    destruct HX as (X & H1 & H2 & H3). exists X. split; [eapply Repr_sub; eassumption | auto].
Qed.
Lemma cw_leaf p st P : Inv st P -> children p = [] -> is_placeholder p = false -> 
  cw (fun _ => push p) st (fun id st' => Inv st' P /\ later st st' /\ at_ st' id p).
Proof.
  intros HI Hc Hp; apply cw_push; auto; [rewrite Hc; intros c [] | intros nc c ->; discriminate Hc].
Qed.

(** ** The operators *)
Lemma is_na_eq q : is_not_allowed q = true -> q = PNotAllowed. Proof. destruct q; discriminate || reflexivity. Qed.
Lemma is_em_eq q : is_empty q = true -> q = PEmpty. Proof. destruct q; discriminate || reflexivity. Qed.
Definition fop (op : nop) (x y : bool) : bool := match op with OpC => x || y | _ => x && y end.

(** The result of an operator, exactly. *)
Definition opR (st : store) (op : nop) (id a b : pid) : Prop :=
  at_ st id (mkp op a b (fop op (nul st a) (nul st b))) \/
  match op with
  | OpC => at_ st a PNotAllowed /\ id = b \/ at_ st b PNotAllowed /\ id = a \/ a = b /\ id = a
  | _ => (at_ st a PNotAllowed \/ at_ st b PNotAllowed) /\ at_ st id PNotAllowed \/
         at_ st a PEmpty /\ id = b \/ at_ st b PEmpty /\ id = a
  end.
Lemma cw_op op a b st P : Inv st P -> inr_ st a -> inr_ st b ->
  cw (fun _ => mko op a b) st (fun id st' => Inv st' P /\ later st st' /\ inr_ st' id /\ opR st' op id a b).
Proof.
  intros HI Ha Hb. destruct (inr_nth _ _ Ha) as [x Hx]. destruct (inr_nth _ _ Hb) as [y Hy].
  assert (Hnx : forall st', later st st' -> nul st' a = is_nullable x).
  { intros st' HL. apply nul_at. eapply ext_nth; [apply HL | exact Hx]. }
  assert (Hny : forall st', later st st' -> nul st' b = is_nullable y).
  { intros st' HL. apply nul_at. eapply ext_nth; [apply HL | exact Hy]. }
  assert (Hpush : cw (fun _ => push (mkp op a b (fop op (is_nullable x) (is_nullable y)))) st
     (fun id st' => Inv st' P /\ later st st' /\ inr_ st' id /\ opR st' op id a b)).
  { eapply cw_mono; [apply cw_push; [exact HI | | destruct op; reflexivity | intros nc c E; destruct op; discriminate E]|].
    - intros c Hc. destruct op; cbn in Hc; destruct Hc as [<-|[<-|[]]]; assumption.
    - intros id st' (H1 & H2 & H3). split; [exact H1|]. split; [exact H2|]. split; [eapply nth_inr; exact H3|].
      left. rewrite (Hnx _ H2), (Hny _ H2). exact H3. }
  assert (Hna : op <> OpC -> x = PNotAllowed \/ y = PNotAllowed -> cw (fun _ => not_allowed) st
     (fun id st' => Inv st' P /\ later st st' /\ inr_ st' id /\ opR st' op id a b)).
  { intros Hop Hxy. eapply cw_mono; [apply cw_leaf; [exact HI | reflexivity | reflexivity]|].
    intros id st' (H1 & H2 & H3). split; [exact H1|]. split; [exact H2|]. split; [eapply nth_inr; exact H3|].
    right. assert (Hor : at_ st' a PNotAllowed \/ at_ st' b PNotAllowed).
    { destruct Hxy as [-> | ->]; [left | right]; eapply ext_nth; [apply H2 | | apply H2 |]; eassumption. }
    destruct op; [contradiction | |]; left; auto. }
  destruct op; cbn [mko] in *; unfold choice, group, interleave; (eapply cw_patt; [exact Hx|]); (eapply cw_patt; [exact Hy|]).
  - destruct (is_not_allowed x) eqn:Ex.
    { apply is_na_eq in Ex; subst x. apply cw_ret. split; [exact HI|]. split; [apply later_refl|]. split; [exact Hb|]. right; auto. }
    destruct (is_not_allowed y) eqn:Ey.
    { apply is_na_eq in Ey; subst y. apply cw_ret. split; [exact HI|]. split; [apply later_refl|]. split; [exact Ha|]. right; auto. }
    destruct (Nat.eqb a b) eqn:Eab.
    { apply Nat.eqb_eq in Eab; subst b. apply cw_ret. split; [exact HI|]. split; [apply later_refl|]. split; [exact Ha|]. right; auto. }
    exact Hpush.
  - destruct (is_not_allowed x) eqn:Ex; [apply Hna; [discriminate | left; apply is_na_eq; exact Ex]|].
    destruct (is_not_allowed y) eqn:Ey; [apply Hna; [discriminate | right; apply is_na_eq; exact Ey]|].
    destruct (is_empty x) eqn:Ex2.
    { apply is_em_eq in Ex2; subst x. apply cw_ret. split; [exact HI|]. split; [apply later_refl|]. split; [exact Hb|]. right; auto. }
    destruct (is_empty y) eqn:Ey2.
    { apply is_em_eq in Ey2; subst y. apply cw_ret. split; [exact HI|]. split; [apply later_refl|]. split; [exact Ha|]. right; auto. }
    exact Hpush.
  - destruct (is_not_allowed x) eqn:Ex; [apply Hna; [discriminate | left; apply is_na_eq; exact Ex]|].
    destruct (is_not_allowed y) eqn:Ey; [apply Hna; [discriminate | right; apply is_na_eq; exact Ey]|].
    destruct (is_empty x) eqn:Ex2.
    { apply is_em_eq in Ex2; subst x. apply cw_ret. split; [exact HI|]. split; [apply later_refl|]. split; [exact Hb|]. right; auto. }
    destruct (is_empty y) eqn:Ey2.
    { apply is_em_eq in Ey2; subst y. apply cw_ret. split; [exact HI|]. split; [apply later_refl|]. split; [exact Ha|]. right; auto. }
    exact Hpush.
Qed.

(** flags and representation of an operator result *)
Definition flags (st : store) (id : pid) (g N : Prop) : Prop := (nul st id = true -> N) /\ (g -> N -> nul st id = true).
Lemma opR_flags st op id a b (g Na Nb : Prop) :
  opR st op id a b -> flags st a g Na -> flags st b g Nb ->
  flags st id g (nulop op Na Nb) /\ opC st false (nulop op Na Nb) op id a b /\ (g -> opC st true (nulop op Na Nb) op id a b).
Proof.
  intros H [Ha1 Ha2] [Hb1 Hb2].
  assert (HP : forall n, n = fop op (nul st a) (nul st b) -> (n = true -> nulop op Na Nb) /\ (g -> nulop op Na Nb -> n = true)).
  { intros n ->. destruct op; cbn; rewrite ?orb_true_iff, ?andb_true_iff; tauto. }
  assert (Hna : forall i, at_ st i PNotAllowed -> nul st i = false) by (intros i Hi; rewrite (nul_at _ _ _ Hi); reflexivity).
  assert (Hem : forall i, at_ st i PEmpty -> nul st i = true) by (intros i Hi; rewrite (nul_at _ _ _ Hi); reflexivity).
  destruct H as [H|H].
  - destruct (HP _ eq_refl) as [P1 P2]. unfold flags. rewrite (nul_at _ _ _ H).
    replace (is_nullable (mkp op a b (fop op (nul st a) (nul st b)))) with (fop op (nul st a) (nul st b)) by (destruct op; reflexivity).
    split; [auto|]. split; [left; eexists; split; [exact H|]; split; auto; discriminate|].
    intros Hg; left; eexists; split; [exact H|]; split; auto.
  - assert (Hflag : flags st id g (nulop op Na Nb)).
    { unfold flags. destruct op; cbn [nulop].
      - destruct H as [[H ->]|[[H ->]|[-> ->]]].
        + specialize (Hna _ H). split; [auto|]. intros Hg [HN|HN]; [rewrite Ha2 in Hna by assumption; discriminate | auto].
        + specialize (Hna _ H). split; [auto|]. intros Hg [HN|HN]; [auto | rewrite Hb2 in Hna by assumption; discriminate].
        + split; [auto|]. intros Hg [HN|HN]; auto.
      - destruct H as [[[H|H] H']|[[H ->]|[H ->]]].
        + rewrite (Hna _ H'). split; [discriminate|]. intros Hg [HN _]. rewrite (Ha2 Hg HN) in *. rewrite (Hna _ H) in Ha2; auto.
        + rewrite (Hna _ H'). split; [discriminate|]. intros Hg [_ HN]. rewrite (Hna _ H) in Hb2; auto.
        + split; [|tauto]. intros Hn; split; auto.
        + split; [|tauto]. intros Hn; split; auto.
      - destruct H as [[[H|H] H']|[[H ->]|[H ->]]].
        + rewrite (Hna _ H'). split; [discriminate|]. intros Hg [HN _]. rewrite (Hna _ H) in Ha2; auto.
        + rewrite (Hna _ H'). split; [discriminate|]. intros Hg [_ HN]. rewrite (Hna _ H) in Hb2; auto.
        + split; [|tauto]. intros Hn; split; auto.
        + split; [|tauto]. intros Hn; split; auto. }
    split; [exact Hflag|]. split; [right; exact H | intros _; right; exact H].
Qed.

Lemma flags_iff st id (g N N' : Prop) : (N <-> N') -> flags st id g N -> flags st id g N'.
Proof. unfold flags; tauto. Qed.
Lemma opC_iff st e N N' op id a b : (N <-> N') -> opC st e N op id a b -> opC st e N' op id a b.
Proof.
  intros HN [(n & H & Hf1 & Hf2)|H]; [left | right; exact H].
  exists n; split; [exact H|]. split; tauto.
Qed.

Lemma Fact_1 op st x id : Fact st x id -> Fact st (mkl op [x]) id.
Proof.
  intros (H1 & H2 & H3 & H4 & H5 & H6 & H7). unfold Fact. rewrite !Repr_1.
  split; [exact H1|]. split; [intros Hg; apply H2; eapply good_hd; exact Hg|].
  rewrite !Nul_mkl1. split; [exact H3|]. split; [intros Hg; apply H4; eapply good_hd; exact Hg|].
  destruct op; cbn; (split; [intros H; constructor; auto|]); (split; [intros H; constructor; auto|]); intros m Hm; constructor; auto.
Qed.
Lemma Fact_2 op st x y l id a b : Fact st x a -> Fact st (mkl op (y :: l)) b -> opR st op id a b ->
  Fact st (mkl op (x :: y :: l)) id.
Proof.
  intros (A1 & A2 & A3 & A4 & A5 & A6 & A7) (B1 & B2 & B3 & B4 & B5 & B6 & B7) HR.
  set (g := good (mkl op (x :: y :: l))).
  assert (Hga : g -> good x) by apply good_hd. assert (Hgb : g -> good (mkl op (y :: l))) by apply good_tl.
  destruct (opR_flags st op id a b g (Nul x) (Nul (mkl op (y :: l))) HR) as (F & C1 & C2); [split; auto | split; auto|].
  apply (flags_iff _ _ _ _ _ (iff_sym (Nul_mkl op x y l))) in F.
  apply (opC_iff _ _ _ _ _ _ _ _ (iff_sym (Nul_mkl op x y l))) in C1.
  unfold Fact. rewrite !Repr_2.
  split; [exists a, b; auto|]. split.
  { intros Hg; exists a, b. split; [auto|]. split; [auto|]. apply (opC_iff _ _ _ _ _ _ _ _ (iff_sym (Nul_mkl op x y l))). auto. }
  split; [apply F|]. split; [apply F|].
  destruct HR as [HR|HR].
  { assert (Hno : forall p, at_ st id p -> is_placeholder p = true \/ is_not_allowed p = true \/ is_empty p = true -> False).
    { intros p Hp Hor. rewrite HR in Hp; injection Hp as <-. destruct op; cbn in Hor; intuition discriminate. }
    split; [intros H; exfalso; eapply Hno; [exact H | auto]|]. split; [intros H; exfalso; eapply Hno; [exact H | auto]|].
    intros m H; exfalso; eapply Hno; [exact H | auto]. }
  destruct op; cbn [mkl] in *.
  - destruct HR as [[H ->]|[[H ->]|[-> ->]]].
    + split; [intros Hq; apply na_ch; auto|]. split; [intros Hq; apply em_chr; auto|]. intros m Hm; apply al_chr; auto.
    + split; [intros Hq; apply na_ch; auto|]. split; [intros Hq; apply em_chl; auto|]. intros m Hm; apply al_chl; auto.
    + split; [intros Hq; apply na_ch; auto|]. split; [intros Hq; apply em_ch; auto|]. intros m Hm; apply al_chl; auto.
  - destruct HR as [[[H|H] H']|[[H ->]|[H ->]]].
    + split; [intros _; apply na_gr1; auto|]. split; [rewrite H'; discriminate | intros m; rewrite H'; discriminate].
    + split; [intros _; apply na_gr2; auto|]. split; [rewrite H'; discriminate | intros m; rewrite H'; discriminate].
    + split; [intros Hq; apply na_gr2; auto|]. split; [intros Hq; apply em_gr; auto|]. intros m Hm; apply al_grr; auto.
    + split; [intros Hq; apply na_gr1; auto|]. split; [intros Hq; apply em_gr; auto|]. intros m Hm; apply al_grl; auto.
  - destruct HR as [[[H|H] H']|[[H ->]|[H ->]]].
    + split; [intros _; apply na_in1; auto|]. split; [rewrite H'; discriminate | intros m; rewrite H'; discriminate].
    + split; [intros _; apply na_in2; auto|]. split; [rewrite H'; discriminate | intros m; rewrite H'; discriminate].
    + split; [intros Hq; apply na_in2; auto|]. split; [intros Hq; apply em_in; auto|]. intros m Hm; apply al_inr; auto.
    + split; [intros Hq; apply na_in1; auto|]. split; [intros Hq; apply em_in; auto|]. intros m Hm; apply al_inl; auto.
Qed.

(** ** References *)
Lemma lookup_nat_cons r r' i l : lookup_nat r ((r', i) :: l) = if Nat.eq_dec r' r then Some i else lookup_nat r l.
Proof. reflexivity. Qed.
Definition unreg (st : store) : nat :=
  length (filter (fun r => match lref st r with None => true | Some _ => false end) (seq 0 (length defs))).
Lemma filter_le {A} (f g : A -> bool) l : (forall x, f x = true -> g x = true) -> length (filter f l) <= length (filter g l).
Proof.
  intros H; induction l as [|x l IH]; [apply le_n|]. cbn. destruct (f x) eqn:Ef.
  - rewrite (H x Ef); cbn; lia.
  - destruct (g x); cbn; lia.
Qed.
Lemma filter_lt {A} (f g : A -> bool) l x : (forall x, f x = true -> g x = true) -> In x l -> f x = false -> g x = true ->
  length (filter f l) < length (filter g l).
Proof.
  intros H; induction l as [|y l IH]; intros Hin Hf Hg; [destruct Hin|]. cbn. destruct Hin as [->|Hin].
  - rewrite Hf, Hg; cbn. pose proof (filter_le f g l H). lia.
  - specialize (IH Hin Hf Hg). destruct (f y) eqn:Ef; [rewrite (H y Ef); cbn; lia | destruct (g y); cbn; lia].
Qed.
Lemma unreg_later st st' : later st st' -> unreg st' <= unreg st.
Proof.
  intros [_ R]. apply filter_le. intros r. destruct (lref st r) as [i|] eqn:E; [rewrite (R r i E); discriminate | reflexivity].
Qed.

Lemma ref_placeholder_ok st P r : Inv st P -> lref st r = None ->
  cw (fun _ => ref_placeholder r) st (fun ph st' =>
    Inv st' (r :: P) /\ later st st' /\ ph = length (pats st) /\ pats st' = pats st ++ [PPlaceholder r] /\ lref st' r = Some ph).
Proof.
  intros [I1 I2 I3 I4 I5 I6] Hr.
  assert (HrP : ~ In r P) by (intros Hin; destruct (I2 r Hin) as [i Hi]; congruence).
  assert (El : lookup_pat (PPlaceholder r) (memo st) = None).
  { destruct (lookup_pat (PPlaceholder r) (memo st)) as [i|] eqn:El; [|reflexivity].
    destruct (I5 _ _ El) as [H|(r' & E & H)]; [destruct (I3 _ _ H); congruence | congruence]. }
  destruct (max_patterns <? N.of_nat (length (pats st)))%N eqn:Em.
  { exists 0, (Panic PTooManyPatterns); split; [|reflexivity]. intros m _; unfold ref_placeholder, bind, push; rewrite Em; reflexivity. }
  exists 0; eexists; split; [intros m _; unfold ref_placeholder, bind, push; rewrite Em, El; reflexivity|].
  cbn [pats memo refs].
  set (st' := Store (pats st ++ [PPlaceholder r]) ((PPlaceholder r, length (pats st)) :: memo st) ((r, length (pats st)) :: refs st)).
  assert (HL : later st st').
  { split; [exists [PPlaceholder r]; reflexivity|]. intros r' i H. unfold lref, st'; cbn [refs]. rewrite lookup_nat_cons.
    destruct (Nat.eq_dec r r') as [<-|_]; [congruence | exact H]. }
  pose proof (later_sub _ _ HL) as HS.
  assert (Hlast : at_ st' (length (pats st)) (PPlaceholder r)) by (cbn; rewrite nth_error_app2, Nat.sub_diag by lia; reflexivity).
  assert (Hlr : lref st' r = Some (length (pats st))).
  { unfold lref, st'; cbn [refs]; rewrite lookup_nat_cons. destruct (Nat.eq_dec r r); [reflexivity | congruence]. }
  split; [|auto]. constructor.
  - intros r' i H. unfold lref, st' in H; cbn [refs] in H; rewrite lookup_nat_cons in H.
    destruct (Nat.eq_dec r r') as [<-|Hne].
    + injection H as <-. left; split; [left; reflexivity | exact Hlast].
    + destruct (I1 r' i H) as [[Ha Hb]|[Ha Hb]]; [left | right].
      * split; [right; exact Ha | eapply ext_nth; [apply HL | exact Hb]].
      * split; [intros [->|Hin]; auto | eapply Done_sub; eassumption].
  - intros r' [<-|Hin]; [eauto|]. destruct (I2 r' Hin) as [i Hi]. exists i. apply HL; exact Hi.
  - intros i r' H. unfold st' in H; cbn [pats] in H. apply nth_snoc in H. destruct H as [H|[-> E]].
    + destruct (I3 i r' H) as [Ha Hb]. split; [right; exact Ha | apply HL; exact Hb].
    + injection E as ->. split; [left; reflexivity | exact Hlr].
  - intros i q c H Hin. unfold st' in *; cbn [pats] in *. rewrite app_length; cbn. apply nth_snoc in H. destruct H as [H|[_ ->]].
    + specialize (I4 i q c H Hin). lia.
    + destruct Hin.
  - intros q i H. unfold st' in H; cbn [memo] in H. rewrite lookup_pat_cons in H. destruct (pat_eq_dec (PPlaceholder r) q) as [<-|Hne].
    + injection H as <-. left; exact Hlast.
    + destruct (I5 q i H) as [H'|(r' & -> & H')]; [left; eapply ext_nth; [apply HL | exact H'] | right].
      exists r'; split; [reflexivity|]. destruct (lref st r') as [k|] eqn:Ek; [|congruence].
      pose proof (proj2 HL r' k Ek) as HH2. intros HH. change (lref st' r' = None) in HH. congruence.
  - intros i nc c H. unfold st' in H; cbn [pats] in H. apply nth_snoc in H. destruct H as [H|[_ E]]; [|discriminate E].
    destruct (I6 i nc c H) as (X & H1 & H2 & H3). exists X. split; [eapply Repr_sub; eassumption | auto].
Qed.

Lemma set_nth_same {A} (l : list A) i x y : nth_error l i = Some y -> nth_error (set_nth l i x) i = Some x.
Proof. revert i; induction l as [|z l IH]; intros [|i] H; try discriminate H; cbn in *; auto. Qed.
Lemma set_nth_other {A} (l : list A) i k x : k <> i -> nth_error (set_nth l i x) k = nth_error l k.
Proof. revert i k; induction l as [|z l IH]; intros [|i] [|k] H; cbn; auto; try congruence. Qed.
Lemma set_nth_len {A} (l : list A) i x : length (set_nth l i x) = length l.
Proof. revert i; induction l as [|z l IH]; intros [|i]; cbn; auto. Qed.
Lemma set_nth_app {A} (l1 l2 : list A) x y : set_nth (l1 ++ y :: l2) (length l1) x = l1 ++ x :: l2.
Proof. induction l1 as [|z l1 IH]; cbn; [reflexivity | rewrite IH; reflexivity]. Qed.

Lemma resolve_ok st P r ph id X : Inv st (r :: P) -> ~ In r P -> lref st r = Some ph -> body r = Some X ->
  inr_ st id -> Fact st X id -> (forall m, ~ at_ st id (PPlaceholder m)) ->
  cw (fun _ => resolve_ref ph id) st (fun _ st' => Inv st' P /\ sub st st' /\ refs st' = refs st /\
      exists q, pats st' = set_nth (pats st) ph q).
Proof.
  intros HI HrP Hr Hb Hid HF Hno. destruct HI as [I1 I2 I3 I4 I5 I6].
  assert (Hph : at_ st ph (PPlaceholder r)).
  { destruct (I1 r ph Hr) as [[_ H]|[H _]]; [exact H | exfalso; apply H; left; reflexivity]. }
  destruct (inr_nth _ _ Hid) as [q Hq].
  assert (Hne : id <> ph) by (intros ->; rewrite Hph in Hq; injection Hq as <-; exact (Hno r Hph)).
  assert (Hqp : is_placeholder q = false) by (destruct q; try reflexivity; exfalso; exact (Hno _ Hq)).
  unfold resolve_ref. destruct (Nat.eqb ph id) eqn:Ee; [apply Nat.eqb_eq in Ee; congruence|].
  eapply cw_patt; [exact Hq|]. rewrite Hqp. eapply cw_patt; [exact Hph|]. cbn [is_placeholder].
  set (st' := Store (set_nth (pats st) ph q) (memo st) (refs st)).
  assert (Ho : forall k, k <> ph -> nth_error (pats st') k = nth_error (pats st) k) by (intros k Hk; apply set_nth_other; exact Hk).
  assert (Hs : at_ st' ph q) by (eapply set_nth_same; exact Hph).
  assert (HS : sub st st').
  { split; [|auto]. intros i p Hp Hnp. rewrite Ho; [exact Hp|]. intros ->. rewrite Hph in Hp; injection Hp as <-; discriminate Hnp. }
  exists 0, (Ok (tt, st')); split; [reflexivity|]. split; [|split; [exact HS | split; [reflexivity | exists q; reflexivity]]].
  constructor.
  - intros r' i H. change (lref st' r') with (lref st r') in H. destruct (I1 r' i H) as [[[<-|Ha] Hc]|[Ha Hc]].
    + right; split; [exact HrP|]. rewrite Hr in H; injection H as <-. exists id, X, q. split; [exact Hb|].
      split; [eapply Fact_eq; [exact HS | exact Hq | rewrite Ho; assumption | exact HF]|]. split; [rewrite Ho; assumption|]. auto.
    + left; split; [exact Ha|]. rewrite Ho; [exact Hc|]. intros ->. rewrite Hph in Hc; injection Hc as ->. exact (HrP Ha).
    + right; split; [intros Hin; apply Ha; right; exact Hin | eapply Done_sub; eassumption].
  - intros r' Hin. apply I2. right; exact Hin.
  - intros i r' H. destruct (Nat.eq_dec i ph) as [->|Hi].
    + rewrite Hs in H; injection H as ->; discriminate Hqp.
    + rewrite Ho in H by exact Hi. destruct (I3 i r' H) as [[<-|Ha] Hc]; [exfalso; apply Hi; congruence|].
      split; [exact Ha | exact Hc].
  - intros i p c H Hin. unfold st'; cbn [pats]. rewrite set_nth_len. destruct (Nat.eq_dec i ph) as [->|Hi].
    + rewrite Hs in H; injection H as <-. exact (I4 id q c Hq Hin).
    + rewrite Ho in H by exact Hi. exact (I4 i p c H Hin).
  - intros p i H. change (memo st') with (memo st) in H. destruct (I5 p i H) as [H'|H']; [|right; exact H'].
    destruct (Nat.eq_dec i ph) as [->|Hi]; [|left; rewrite Ho; assumption].
    right. rewrite Hph in H'; injection H' as <-. exists r. split; [reflexivity|]. change (lref st' r) with (lref st r). congruence.
  - intros i nc c H. assert (HX : exists X, Repr st false X c /\ SOK X /\ exists j, TYP j (T nc) X).
    { destruct (Nat.eq_dec i ph) as [->|Hi].
      + rewrite Hs in H; injection H as ->. exact (I6 id nc c Hq).
      + rewrite Ho in H by exact Hi. exact (I6 i nc c H). }
    destruct HX as (Y & H1 & H2 & H3). exists Y. split; [eapply Repr_sub; eassumption | auto].
Qed.

(** ** Compilation *)
Hypothesis Hdefs : forall r X, body r = Some X -> SOK X.
Hypothesis Halias : no_alias defs.

Definition CPost (X : mpat) (st : store) (P : list nat) (id : pid) (st' : store) : Prop :=
  Inv st' P /\ later st st' /\ inr_ st' id /\ Fact st' X id.
Definition CSpec (k : nat) (X : mpat) : Prop := forall st P, Inv st P -> SOK X -> unreg st <= k ->
  (forall r r', In r P -> refs_in X r' -> reach r r') ->
  cw (fun m => compile defs m X) st (CPost X st P).

Lemma compile_list k op l : Forall (CSpec k) l -> l <> [] -> forall st P, Inv st P -> SOK (mkl op l) -> unreg st <= k ->
  (forall r r', In r P -> refs_in (mkl op l) r' -> reach r r') ->
  cw (fun m => comp_list (mko op) (compile defs m) l) st (CPost (mkl op l) st P).
Proof.
  induction 1 as [|x l Hx Hl IH]; intros Hne st P HI HS Hu Hr; [congruence|].
  assert (HSx : SOK x) by (destruct op; cbn in HS; apply HS).
  assert (Hrx : forall r r', In r P -> refs_in x r' -> reach r r') by (intros r r' H1 H2; apply Hr; [exact H1 | destruct op; cbn; left; exact H2]).
  destruct l as [|y l].
  - cbn [comp_list]. eapply cw_mono; [apply Hx; eassumption|]. intros id st' (H1 & H2 & H3 & H4).
    split; [exact H1|]. split; [exact H2|]. split; [exact H3|]. apply Fact_1; exact H4.
  - assert (HSl : SOK (mkl op (y :: l))) by (destruct op; cbn in HS |- *; (split; [discriminate | apply HS])).
    assert (Hrl : forall r r', In r P -> refs_in (mkl op (y :: l)) r' -> reach r r') by (intros r r' H1 H2; apply Hr; [exact H1 | destruct op; cbn; right; exact H2]).
    change (cw (fun m => bind (comp_list (mko op) (compile defs m) (y :: l)) (fun rgt => bind (compile defs m x) (fun lft => mko op lft rgt))) st
              (CPost (mkl op (x :: y :: l)) st P)).
    eapply cw_bind; [apply IH; [discriminate | exact HI | exact HSl | exact Hu | exact Hrl]|].
    intros b st1 (HI1 & HL1 & Hb & HFb); cbn beta.
    eapply cw_bind; [apply Hx; [exact HI1 | exact HSx | pose proof (unreg_later _ _ HL1); lia | exact Hrx]|].
    intros a st2 (HI2 & HL2 & Ha & HFa); cbn beta.
    eapply cw_mono; [apply cw_op; [exact HI2 | exact Ha | eapply ext_inr; [apply HL2 | exact Hb]]|].
    intros id st3 (HI3 & HL3 & Hid & HR); cbn beta.
    split; [exact HI3|]. split; [eapply later_trans; [exact HL1 | eapply later_trans; eassumption]|]. split; [exact Hid|].
    eapply Fact_2; [eapply Fact_later; [exact HL3 | exact Ha | exact HFa] | | exact HR].
    eapply Fact_later; [exact HL3 | eapply ext_inr; [apply HL2 | exact Hb]|].
    eapply Fact_later; [exact HL2 | exact Hb | exact HFb].
Qed.

Lemma good_imp X Y : (forall r, ureach defs Y r -> ureach defs X r) -> good X -> good Y.
Proof. intros H Hg r Z Hu; apply Hg; auto. Qed.
Lemma good_leaf X : (forall r, ~ ureach defs X r) -> good X.
Proof. intros H r Y Hu; destruct (H r Hu). Qed.

Theorem compile_ok k : forall X, CSpec k X.
Proof.
  induction k as [k IHk] using lt_wf_ind.
  assert (Hlist : forall op l, Forall (CSpec k) l -> (forall m, compile defs (S m) (mkl op l) = comp_list (mko op) (compile defs m) l) -> CSpec k (mkl op l)).
  { intros op l Hl Heq st P HI HS Hu Hr. apply cw_S.
    destruct (compile_list k op l Hl) with (st := st) (P := P) as (n & r & H & Hr'); auto.
    { destruct op; cbn in HS; apply HS. }
    exists n, r; split; [|exact Hr']. intros m Hm. rewrite Heq. apply H; exact Hm. }
  (* a leaf: one push *)
  assert (Hleaf : forall X p, (forall m, compile defs (S m) X = push p) -> children p = [] -> is_placeholder p = false ->
     (forall r, ~ ureach defs X r) -> (forall st e id, at_ st id p -> Repr st e X id) ->
     (is_nullable p = true <-> Nul X) -> (p = PNotAllowed -> na_able X) -> (p = PEmpty -> empty_able X) -> CSpec k X).
  { intros X p Heq Hc Hp Hur HRp Hnul Hna Hem st P HI HS Hu Hr. apply cw_S.
    assert (H : cw (fun _ => push p) st (CPost X st P)).
    { eapply cw_mono; [apply cw_leaf; [exact HI | exact Hc | exact Hp]|]. intros id st' (H1 & H2 & H3); cbn beta.
      split; [exact H1|]. split; [exact H2|]. split; [eapply nth_inr; exact H3|].
      unfold Fact. rewrite (nul_at _ _ _ H3), Hnul.
      split; [auto|]. split; [auto|]. split; [auto|]. split; [auto|].
      split; [intros H; rewrite H3 in H; injection H; auto|]. split; [intros H; rewrite H3 in H; injection H; auto|].
      intros m H; rewrite H3 in H; injection H as ->; discriminate Hp. }
    destruct H as (n & r & H & Hr'); exists n, r; split; [|exact Hr']. intros m Hm; rewrite Heq; exact (H m Hm). }
  (* a unary constructor which is pushed *)
  assert (Hun : forall X p (mk : pid -> pat), CSpec k p -> (forall m, compile defs (S m) X = bind (compile defs m p) (fun a => push (mk a))) ->
     (SOK X -> SOK p) -> (forall r, refs_in X r = refs_in p r) -> (forall a, children (mk a) = [a]) -> (forall a, is_placeholder (mk a) = false) ->
     (forall a, is_not_allowed (mk a) = false) -> (forall a, is_empty (mk a) = false) -> (forall a, is_nullable (mk a) = false) ->
     ~ Nul X -> (SOK X -> forall st, forall a, Fact st p a -> elem_fact st (mk a)) ->
     (SOK X -> forall st e id a, Fact st p a -> at_ st id (mk a) -> Repr st e X id) -> CSpec k X).
  { intros X p mk IHp Heq HSp Hrf Hch Hpl Hna Hem Hnl HN Hel HRp st P HI HS Hu Hr. apply cw_S.
    assert (H : cw (fun m => bind (compile defs m p) (fun a => push (mk a))) st (CPost X st P)).
    { eapply cw_bind; [apply IHp; [exact HI | auto | exact Hu | intros r r' H1 H2; apply Hr; [exact H1 | rewrite Hrf; exact H2]]|].
      intros a st1 (HI1 & HL1 & Ha & HFa); cbn beta.
      eapply cw_mono; [apply cw_push; [exact HI1 | intros c; rewrite Hch; intros [<-|[]]; exact Ha | apply Hpl | apply Hel; assumption]|].
      intros id st2 (HI2 & HL2 & Hid); cbn beta.
      split; [exact HI2|]. split; [eapply later_trans; eassumption|]. split; [eapply nth_inr; exact Hid|].
      assert (HFa2 : Fact st2 p a) by (eapply Fact_later; eassumption).
      unfold Fact. rewrite (nul_at _ _ _ Hid), Hnl.
      split; [eapply HRp; eassumption|]. split; [intros _; eapply HRp; eassumption|].
      split; [discriminate|]. split; [intros _ HX; contradiction|].
      split; [intros H; rewrite Hid in H; injection H as H; specialize (Hna a); rewrite H in Hna; discriminate Hna|].
      split; [intros H; rewrite Hid in H; injection H as H; specialize (Hem a); rewrite H in Hem; discriminate Hem|].
      intros m H; rewrite Hid in H; injection H as H; specialize (Hpl a); rewrite H in Hpl; discriminate Hpl. }
    destruct H as (n & r & H & Hr'); exists n, r; split; [|exact Hr']. intros m Hm; rewrite Heq; exact (H m Hm). }
  refine (mpat_ind' _ _ _ _ _ _ _ _ _ _ _ _ _ _ _ _ _).
  - intros l Hl. apply (Hlist OpC l Hl). reflexivity.
  - intros l Hl. apply (Hlist OpI l Hl). reflexivity.
  - intros l Hl. apply (Hlist OpG l Hl). reflexivity.
  - (* mixed *)
    intros p IHp st P HI HS Hu Hr. apply cw_S. cbn [compile].
    eapply cw_bind; [apply IHp; [exact HI | exact HS | exact Hu | exact Hr]|].
    intros a st1 (HI1 & HL1 & Ha & HFa); cbn beta. unfold mixed.
    eapply cw_bind; [apply cw_leaf; [exact HI1 | reflexivity | reflexivity]|]. intros t st2 (HI2 & HL2 & Ht); cbn beta.
    eapply cw_mono; [apply (cw_op OpI); [exact HI2 | eapply ext_inr; [apply HL2 | exact Ha] | eapply nth_inr; exact Ht]|].
    intros id st3 (HI3 & HL3 & Hid & HR); cbn beta.
    split; [exact HI3|]. split; [eapply later_trans; [exact HL1 | eapply later_trans; eassumption]|]. split; [exact Hid|].
    assert (HL13 : later st1 st3) by (eapply later_trans; eassumption).
    apply (Fact_later _ _ _ _ HL13 Ha) in HFa. apply (ext_nth _ _ _ _ (proj1 HL3)) in Ht.
    destruct HFa as (A1 & A2 & A3 & A4 & A5 & A6 & A7).
    assert (Hg : good (MMixed p) -> good p) by (apply good_imp; intros r; apply ur_mixed).
    destruct (opR_flags st3 OpI id a t (good (MMixed p)) (Nul p) True HR) as (F & C1 & C2);
      [split; auto | split; [auto | intros; rewrite (nul_at _ _ _ Ht); reflexivity]|].
    assert (HN : nulop OpI (Nul p) True <-> Nul p) by (cbn; tauto).
    assert (HN2 : Nul p <-> Nul (MMixed p)) by (split; [intros H; constructor; exact H | intros H; inversion H; assumption]).
    apply (flags_iff _ _ _ _ _ HN), (flags_iff _ _ _ _ _ HN2) in F.
    unfold Fact; cbn [Repr].
    split; [exists a, t; split; [exact A1|]; split; [exact Ht | apply (opC_iff _ _ _ _ _ _ _ _ HN); exact C1]|].
    split; [intros Hgg; exists a, t; split; [auto|]; split; [exact Ht | apply (opC_iff _ _ _ _ _ _ _ _ HN); auto]|].
    split; [apply F|]. split; [apply F|].
    destruct HR as [HR|[[[H|H] H']|[[H ->]|[H ->]]]].
    + split; [rewrite HR; discriminate|]. split; [rewrite HR; discriminate | intros m; rewrite HR; discriminate].
    + split; [intros _; constructor; auto|]. split; [rewrite H'; discriminate | intros m; rewrite H'; discriminate].
    + rewrite Ht in H; discriminate H.
    + split; [rewrite Ht; discriminate|]. split; [rewrite Ht; discriminate | intros m; rewrite Ht; discriminate].
    + rewrite Ht in H; discriminate H.
  - apply (Hleaf MEmpty PEmpty); auto; try reflexivity.
    + intros r H; inversion H.
    + split; [constructor | reflexivity].
    + discriminate.
    + constructor.
  - apply (Hleaf MText PText); auto; try reflexivity; try discriminate.
    + intros r H; inversion H.
    + split; [constructor | reflexivity].
  - apply (Hleaf MNotAllowed PNotAllowed); auto; try reflexivity; try discriminate.
    + intros r H; inversion H.
    + split; [discriminate | intros H; inversion H].
    + constructor.
  - (* optional *)
    intros p IHp st P HI HS Hu Hr. apply cw_S. cbn [compile].
    eapply cw_bind; [apply IHp; [exact HI | exact HS | exact Hu | exact Hr]|].
    intros a st1 (HI1 & HL1 & Ha & HFa); cbn beta.
    eapply cw_bind; [apply cw_leaf; [exact HI1 | reflexivity | reflexivity]|]. intros t st2 (HI2 & HL2 & Ht); cbn beta.
    eapply cw_mono; [apply (cw_op OpC); [exact HI2 | eapply ext_inr; [apply HL2 | exact Ha] | eapply nth_inr; exact Ht]|].
    intros id st3 (HI3 & HL3 & Hid & HR); cbn beta.
    split; [exact HI3|]. split; [eapply later_trans; [exact HL1 | eapply later_trans; eassumption]|]. split; [exact Hid|].
    assert (HL13 : later st1 st3) by (eapply later_trans; eassumption).
    apply (Fact_later _ _ _ _ HL13 Ha) in HFa. apply (ext_nth _ _ _ _ (proj1 HL3)) in Ht.
    destruct HFa as (A1 & A2 & A3 & A4 & A5 & A6 & A7).
    assert (Hg : good (MOptional p) -> good p) by (apply good_imp; intros r; apply ur_opt).
    destruct (opR_flags st3 OpC id a t (good (MOptional p)) (Nul p) True HR) as (F & C1 & C2);
      [split; auto | split; [auto | intros; rewrite (nul_at _ _ _ Ht); reflexivity]|].
    assert (HN : nulop OpC (Nul p) True <-> True) by (cbn; tauto).
    assert (HN2 : True <-> Nul (MOptional p)) by (split; [constructor | auto]).
    apply (flags_iff _ _ _ _ _ HN), (flags_iff _ _ _ _ _ HN2) in F.
    unfold Fact; cbn [Repr].
    split; [exists a, t; split; [exact A1|]; split; [exact Ht | apply (opC_iff _ _ _ _ _ _ _ _ HN); exact C1]|].
    split; [intros Hgg; exists a, t; split; [auto|]; split; [exact Ht | apply (opC_iff _ _ _ _ _ _ _ _ HN); auto]|].
    split; [apply F|]. split; [apply F|].
    destruct HR as [HR|[[H ->]|[[H ->]|[-> ->]]]].
    + split; [rewrite HR; discriminate|]. split; [rewrite HR; discriminate | intros m; rewrite HR; discriminate].
    + split; [rewrite Ht; discriminate|]. split; [intros _; apply em_opt_na; auto | intros m; rewrite Ht; discriminate].
    + rewrite Ht in H; discriminate H.
    + split; [rewrite Ht; discriminate|]. split; [intros _; apply em_opt_em; auto | intros m; rewrite Ht; discriminate].
  - (* zeroOrMore *)
    intros p IHp st P HI HS Hu Hr. apply cw_S. cbn [compile]. cbn in HS; destruct HS as [HSp Hmo].
    eapply cw_bind; [apply IHp; [exact HI | exact HSp | exact Hu | exact Hr]|].
    intros a st1 (HI1 & HL1 & Ha & HFa); cbn beta. unfold one_or_more.
    destruct (inr_nth _ _ Ha) as [xa Hxa].
    eapply cw_bind; [eapply cw_patt; [exact Hxa|]; apply cw_push; [exact HI1 | intros c [<-|[]]; exact Ha | reflexivity | intros nc c E; discriminate E]|].
    intros o st2 (HI2 & HL2 & Ho); cbn beta.
    eapply cw_bind; [apply cw_leaf; [exact HI2 | reflexivity | reflexivity]|]. intros t st3 (HI3 & HL3 & Ht); cbn beta.
    eapply cw_mono; [apply (cw_op OpC); [exact HI3 | eapply ext_inr; [apply HL3 | eapply nth_inr; exact Ho] | eapply nth_inr; exact Ht]|].
    intros id st4 (HI4 & HL4 & Hid & HR); cbn beta.
    assert (HL24 : later st2 st4) by (eapply later_trans; eassumption).
    assert (HL14 : later st1 st4) by (eapply later_trans; eassumption).
    split; [exact HI4|]. split; [eapply later_trans; [exact HL1 | exact HL14]|]. split; [exact Hid|].
    apply (Fact_later _ _ _ _ HL14 Ha) in HFa. apply (ext_nth _ _ _ _ (proj1 HL4)) in Ht.
    apply (ext_nth _ _ _ _ (proj1 HL24)) in Ho. apply (ext_nth _ _ _ _ (proj1 HL14)) in Hxa.
    destruct HFa as (A1 & A2 & A3 & A4 & A5 & A6 & A7).
    rewrite (nul_at _ _ _ Hxa) in A3, A4.
    assert (Hg : good (MZeroOrMore p) -> good p) by (apply good_imp; intros r; apply ur_zero).
    pose proof (more_ok_repr _ _ _ A2 A1 Hmo) as HRt.
    destruct (opR_flags st4 OpC id o t (good (MZeroOrMore p)) (Nul p) True HR) as (F & C1 & C2);
      [rewrite <- (nul_at _ _ _ Hxa) in A3, A4; split; rewrite (nul_at _ _ _ Ho); cbn; rewrite <- (nul_at _ _ _ Hxa); auto
      | split; [auto | intros; rewrite (nul_at _ _ _ Ht); reflexivity]|].
    assert (HN : nulop OpC (Nul p) True <-> True) by (cbn; tauto).
    assert (HN2 : True <-> Nul (MZeroOrMore p)) by (split; [constructor | auto]).
    apply (flags_iff _ _ _ _ _ HN), (flags_iff _ _ _ _ _ HN2) in F.
    unfold Fact; cbn [Repr].
    split; [exists a, o, (is_nullable xa), t; split; [exact HRt|]; split; [exact Ho|]; split; [split; [exact A3 | discriminate]|];
            split; [exact Ht | apply (opC_iff _ _ _ _ _ _ _ _ HN); exact C1]|].
    split; [intros Hgg; exists a, o, (is_nullable xa), t; split; [exact HRt|]; split; [exact Ho|]; split; [split; auto|];
            split; [exact Ht | apply (opC_iff _ _ _ _ _ _ _ _ HN); auto]|].
    split; [apply F|]. split; [apply F|].
    destruct HR as [HR|[[H ->]|[[H ->]|[-> ->]]]].
    + split; [rewrite HR; discriminate|]. split; [rewrite HR; discriminate | intros m; rewrite HR; discriminate].
    + rewrite Ho in H; discriminate H.
    + rewrite Ht in H; discriminate H.
    + rewrite Ht in Ho; discriminate Ho.
  - (* oneOrMore *)
    intros p IHp st P HI HS Hu Hr. apply cw_S. cbn [compile]. cbn in HS; destruct HS as [HSp Hmo].
    eapply cw_bind; [apply IHp; [exact HI | exact HSp | exact Hu | exact Hr]|].
    intros a st1 (HI1 & HL1 & Ha & HFa); cbn beta. unfold one_or_more.
    destruct (inr_nth _ _ Ha) as [xa Hxa].
    eapply cw_mono; [eapply cw_patt; [exact Hxa|]; apply cw_push; [exact HI1 | intros c [<-|[]]; exact Ha | reflexivity | intros nc c E; discriminate E]|].
    intros o st2 (HI2 & HL2 & Ho); cbn beta.
    split; [exact HI2|]. split; [eapply later_trans; eassumption|]. split; [eapply nth_inr; exact Ho|].
    apply (Fact_later _ _ _ _ HL2 Ha) in HFa. apply (ext_nth _ _ _ _ (proj1 HL2)) in Hxa.
    destruct HFa as (A1 & A2 & A3 & A4 & A5 & A6 & A7).
    rewrite (nul_at _ _ _ Hxa) in A3, A4.
    assert (Hg : good (MOneOrMore p) -> good p) by (apply good_imp; intros r; apply ur_one).
    pose proof (more_ok_repr _ _ _ A2 A1 Hmo) as HRt.
    unfold Fact; cbn [Repr]. rewrite (nul_at _ _ _ Ho); cbn [is_nullable].
    split; [exists a, (is_nullable xa); split; [exact HRt|]; split; [exact Ho | split; [exact A3 | discriminate]]|].
    split; [intros Hgg; exists a, (is_nullable xa); split; [exact HRt|]; split; [exact Ho | split; auto]|].
    split; [intros H; constructor; auto|]. split; [intros Hgg H; inversion H; subst; auto|].
    split; [rewrite Ho; discriminate|]. split; [rewrite Ho; discriminate | intros m; rewrite Ho; discriminate].
  - (* attribute *)
    intros nc p IHp. eapply (Hun (MAttribute nc p) p (PAttribute nc)); auto; try reflexivity.
    + intros [H _]; exact H.
    + intros H; inversion H.
    + intros _ st a _ nc' c E; discriminate E.
    + intros [_ Hgd] st e id a (A1 & A2 & _) Hid. exists a. auto.
  - (* element *)
    intros nc p IHp. eapply (Hun (MElement nc p) p (PElement nc)); auto; try reflexivity.
    + intros [H _]; exact H.
    + intros H; inversion H.
    + intros [HSp Hty] st a (A1 & _) nc' c E. injection E as <- <-. exists p; auto.
    + intros _ st e id a (A1 & A2 & _) Hid. exists a. auto.
  - (* reference *)
    intros r st P HI HS Hu Hr. apply cw_S. cbn [compile].
    assert (Hget : forall R, (forall i, lref st r = Some i -> cw (fun _ => ret i) st R) ->
       (lref st r = None -> cw (fun m => bind (ref_placeholder r) (fun ph =>
            match nth_error defs r with
            | None => fail PMissingDefinition
            | Some X => bind (compile defs m X) (fun id => bind (resolve_ref ph id) (fun _ => ret ph))
            end)) st R) ->
       cw (fun m => bind (get_ref r) (fun g => match g with
            | Some id => ret id
            | None => bind (ref_placeholder r) (fun ph =>
                match nth_error defs r with
                | None => fail PMissingDefinition
                | Some X => bind (compile defs m X) (fun id => bind (resolve_ref ph id) (fun _ => ret ph))
                end) end)) st R).
    { intros R H1 H2. unfold lref in *. destruct (lookup_nat r (refs st)) as [i|] eqn:E.
      - destruct (H1 i eq_refl) as (n & x & H & Hx). exists n, x; split; [|exact Hx].
        intros m Hm. unfold bind, get_ref. rewrite E. apply (H m Hm).
      - destruct (H2 eq_refl) as (n & x & H & Hx). exists n, x; split; [|exact Hx].
        intros m Hm. unfold bind at 1, get_ref. rewrite E. apply (H m Hm). }
    apply Hget; clear Hget.
    + intros i Hi. apply cw_ret. destruct (I_ref _ _ HI r i Hi) as [[Hin Hp]|[Hnin (j & X & q & Hb & (A1 & A2 & A3 & A4 & A5 & A6 & A7) & Hj & Hq & Hqp)]].
      * split; [exact HI|]. split; [apply later_refl|]. split; [eapply nth_inr; exact Hp|].
        assert (Hrr : reach r r) by (apply Hr; [exact Hin | reflexivity]).
        unfold Fact; cbn [Repr]. rewrite (nul_at _ _ _ Hp); cbn [is_nullable].
        split; [exact Hi|]. split; [auto|]. split; [discriminate|].
        split; [intros Hg HN; exfalso; inversion HN; subst; eapply Hg; [apply ur_ref | exact Hrr | eassumption | assumption]|].
        split; [rewrite Hp; discriminate|]. split; [rewrite Hp; discriminate|]. intros m Hm; rewrite Hp in Hm; injection Hm as <-; constructor.
      * split; [exact HI|]. split; [apply later_refl|]. split; [eapply nth_inr; exact Hq|].
        assert (Hn : nul st i = nul st j) by (rewrite (nul_at _ _ _ Hq), (nul_at _ _ _ Hj); reflexivity).
        unfold Fact; cbn [Repr]. rewrite Hn.
        split; [exact Hi|]. split; [auto|]. split; [intros H; econstructor; [exact Hb | auto]|].
        split; [intros Hg HN; inversion HN; subst; assert (X0 = X) as -> by congruence; apply A4; [eapply good_ref; eassumption | assumption]|].
        split; [intros H; econstructor; [exact Hb | apply A5; congruence]|].
        split; [intros H; econstructor; [exact Hb | apply A6; congruence]|].
        intros m H. rewrite Hq in H; injection H as ->; discriminate Hqp.
    + intros Hnone. cbn in HS. destruct (body r) as [X|] eqn:Hb; [|congruence]. clear HS.
      unfold Schema.body in Hb. rewrite Hb.
      assert (HrP : ~ In r P) by (intros Hin; destruct (I_prog _ _ HI r Hin); congruence).
      eapply cw_bind; [apply ref_placeholder_ok; [exact HI | exact Hnone]|].
      intros ph st1 (HI1 & HL1 & -> & Hpats & Hlr); cbn beta.
      assert (Hdec : unreg st1 < unreg st).
      { apply filter_lt with (x := r).
        - intros r'. destruct (lref st r') as [i|] eqn:E; [rewrite (proj2 HL1 r' i E); discriminate | reflexivity].
        - apply in_seq. split; [lia|]. cbn. apply nth_error_Some. rewrite Hb; discriminate.
        - rewrite Hlr; reflexivity.
        - rewrite Hnone; reflexivity. }
      assert (Hr1 : forall r0 r', In r0 (r :: P) -> refs_in X r' -> reach r0 r').
      { intros r0 r' [<-|Hin] Hx; [eapply reach_one; [exact Hb | exact Hx]|].
        eapply reach_trans; [apply Hr; [exact Hin | reflexivity] | eapply reach_one; [exact Hb | exact Hx]]. }
      eapply cw_bind; [apply (IHk (unreg st1)); [lia | exact HI1 | eapply Hdefs; exact Hb | apply le_n | exact Hr1]|].
      intros id st2 (HI2 & HL2 & Hid & HF); cbn beta.
      assert (Hlr2 : lref st2 r = Some (length (pats st))) by (apply HL2; exact Hlr).
      assert (Hno : forall m, ~ at_ st2 id (PPlaceholder m)).
      { intros m Hm. destruct (I_ph _ _ HI2 id m Hm) as [Hin _]. destruct HF as (_ & _ & _ & _ & _ & _ & A7).
        destruct (Halias r m X Hb (A7 m Hm)) as [Hne Hnr]. destruct Hin as [->|Hin]; [congruence|].
        apply Hnr. apply Hr; [exact Hin | reflexivity]. }
      eapply cw_bind; [eapply resolve_ok; [exact HI2 | exact HrP | exact Hlr2 | exact Hb | exact Hid | exact HF | exact Hno]|].
      intros u st3 (HI3 & HS3 & Hrf3 & q & Hp3); cbn beta. apply cw_ret.
      assert (Hext : ext st st3).
      { destruct HL2 as [[l Hl] _]. exists (q :: l). rewrite Hp3, Hl, Hpats, <- app_assoc; cbn. rewrite set_nth_app. reflexivity. }
      assert (HL3 : later st st3).
      { split; [exact Hext|]. intros r' i H. unfold lref. rewrite Hrf3. apply HL2, HL1; exact H. }
      assert (Hi3 : lref st3 r = Some (length (pats st))) by (unfold lref; rewrite Hrf3; exact Hlr2).
      destruct (I_ref _ _ HI3 r _ Hi3) as [[Hin _]|[_ (j & X' & q' & Hb' & (A1 & A2 & A3 & A4 & A5 & A6 & A7) & Hj & Hq & Hqp)]]; [contradiction|].
      unfold Schema.body in Hb'. assert (X' = X) as -> by congruence.
      split; [exact HI3|]. split; [exact HL3|]. split; [eapply nth_inr; exact Hq|].
      assert (Hn : nul st3 (length (pats st)) = nul st3 j) by (rewrite (nul_at _ _ _ Hq), (nul_at _ _ _ Hj); reflexivity).
      unfold Fact; cbn [Repr]. rewrite Hn.
      split; [exact Hi3|]. split; [auto|]. split; [intros H; econstructor; [exact Hb | auto]|].
      split; [intros Hg HN; inversion HN as [| | | | | | | | | | | |r0 X0 HbX HX]; subst; unfold Schema.body in HbX; assert (X0 = X) as -> by congruence; apply A4; [eapply good_ref; [exact Hb | exact Hg] | assumption]|].
      split; [intros H; econstructor; [exact Hb | apply A5; congruence]|].
      split; [intros H; econstructor; [exact Hb | apply A6; congruence]|].
      intros m H. rewrite Hq in H; injection H as ->; discriminate Hqp.
  - (* value *)
    intros v. apply (Hleaf (MValue v) (PDatatypeValue v)); auto; try reflexivity; try discriminate.
    + intros r H; inversion H.
    + split; [discriminate | intros H; inversion H].
  - (* data *)
    intros d [e|] IHe.
    + eapply (Hun (MData d (Some e)) e (PDatatypeExcept d)); auto; try reflexivity.
      * intros [_ [H _]]; exact H.
      * intros H; inversion H.
      * intros _ st a _ nc' c E; discriminate E.
      * intros [_ [_ Hex]] st b id a (A1 & A2 & _) Hid. exists a. auto.
    + apply (Hleaf (MData d None) (PDatatype d)); auto; try reflexivity; try discriminate.
      * intros r H; inversion H.
      * split; [discriminate | intros H; inversion H].
  - (* list *)
    intros p IHp. eapply (Hun (MList p) p PList); auto; try reflexivity.
    + intros [H _]; exact H.
    + intros H; inversion H.
    + intros _ st a _ nc' c E; discriminate E.
    + intros [_ Hgd] st e id a (A1 & A2 & _) Hid. exists a. auto.
Qed.
End CP.
