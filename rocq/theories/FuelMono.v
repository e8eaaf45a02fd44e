(** * FuelMono: a larger recursion budget does not change a result of the validator model. *)
From Verif Require Import Base Datatype Store Deriv Events Compile Diag.
Open Scope monad_scope.

Definition le {A} (x y : res A) : Prop := x = OutOfFuel \/ x = y.
Definition mle {A} (x y : M A) : Prop := forall st, le (x st) (y st).
Lemma le_refl {A} (x : res A) : le x x.
Proof. right; reflexivity. Qed.
Lemma le_trans {A} (x y z : res A) : le x y -> le y z -> le x z.
Proof. intros [->| ->] H; [left; reflexivity | exact H]. Qed.
Lemma mle_refl {A} (x : M A) : mle x x.
Proof. intros st. apply le_refl. Qed.
Lemma le_rbind {A B} (x y : res A) (f g : A -> res B) : le x y -> (forall a, le (f a) (g a)) -> le (rbind x f) (rbind y g).
Proof. intros [->| ->] H; [left; reflexivity|]. destruct y; cbn; [apply H | right; reflexivity | left; reflexivity]. Qed.
Lemma mle_bind {A B} (x y : M A) (f g : A -> M B) : mle x y -> (forall a, mle (f a) (g a)) -> mle (bind x f) (bind y g).
Proof.
  intros H K st. unfold bind. destruct (H st) as [->| ->]; [left; reflexivity|].
  destruct (y st) as [[a st']|p|]; [apply K | right; reflexivity | left; reflexivity].
Qed.
Lemma mle_oof {A} (y : M A) : mle out_of_fuel y.
Proof. intros st. left; reflexivity. Qed.
Ltac mono1 := match goal with
  | |- forall _, _ => intros
  | |- mle out_of_fuel _ => apply mle_oof
  | H : _ |- _ => apply H
  | |- mle (bind _ _) (bind _ _) => apply mle_bind
  | |- mle (if ?b then _ else _) _ => destruct b
  | |- mle (match ?x with _ => _ end) _ => destruct x
  | |- mle (let '(_, _) := ?x in _) _ => destruct x
  | |- mle ?x ?x => apply mle_refl
  end.
Ltac mono := repeat mono1.

Section Mono.
Variable O : oracles.
Lemma list_loop_mono (t t' : pat -> str -> M pid) : (forall p s, mle (t p s) (t' p s)) -> forall l p, mle (list_loop t p l) (list_loop t' p l).
Proof. intros H. induction l as [|x l IH]; intros p; cbn [list_loop]; mono. Qed.
Lemma text_mono n : forall n' p s, n <= n' -> mle (text_deriv O n p s) (text_deriv O n' p s).
Proof.
  induction n as [|n IH]; intros [|n'] p s H; try apply mle_oof; [lia|]. assert (K : forall p s, mle (text_deriv O n p s) (text_deriv O n' p s)) by (intros; apply IH; lia). clear IH H.
  cbn [text_deriv]. destruct p; mono. apply list_loop_mono. exact K.
Qed.
Lemma apply_after_mono n : forall n' p (f g : pid -> M pid), n <= n' -> (forall q, mle (f q) (g q)) -> mle (apply_after n p f) (apply_after n' p g).
Proof.
  induction n as [|n IH]; intros [|n'] p f g H F; try apply mle_oof; [lia|]. assert (K : forall p, mle (apply_after n p f) (apply_after n' p g)) by (intros; apply IH; [lia | exact F]). clear IH H.
  cbn [apply_after]. destruct p; mono.
Qed.
Lemma open_mono n : forall n' p nm, n <= n' -> mle (start_tag_open_deriv n p nm) (start_tag_open_deriv n' p nm).
Proof.
  induction n as [|n IH]; intros [|n'] p nm H; try apply mle_oof; [lia|]. assert (K : forall p, mle (start_tag_open_deriv n p nm) (start_tag_open_deriv n' p nm)) by (intros; apply IH; lia).
  assert (L : n <= n') by lia. clear IH H. cbn [start_tag_open_deriv]. destruct p; repeat first [apply apply_after_mono; [exact L|]; intros; apply mle_refl | mono1].
Qed.
Lemma value_match_mono n n' p s : n <= n' -> mle (value_match O n p s) (value_match O n' p s).
Proof. intros L. unfold value_match. destruct (_ && _); [apply mle_refl|]. apply mle_bind; [apply text_mono, L | mono]. Qed.
Lemma att_mono n : forall n' mm p a, n <= n' -> mle (att_deriv O n mm p a) (att_deriv O n' mm p a).
Proof.
  induction n as [|n IH]; intros [|n'] mm p a H; try apply mle_oof; [lia|]. assert (K : forall mm p a, mle (att_deriv O n mm p a) (att_deriv O n' mm p a)) by (intros; apply IH; lia).
  assert (L : n <= n') by lia. clear IH H. cbn [att_deriv]. destruct (lookup_nat p mm); [apply mle_refl|]. apply mle_bind; [apply mle_refl|]. intros x. apply mle_bind; [|intros [? ?]; apply mle_refl].
  destruct x; try apply mle_refl; repeat first [apply value_match_mono; exact L | mono1].
Qed.
Lemma close_mono n : forall n' p, n <= n' -> mle (start_tag_close_deriv n p) (start_tag_close_deriv n' p).
Proof.
  induction n as [|n IH]; intros [|n'] p H; try apply mle_oof; [lia|]. assert (K : forall p, mle (start_tag_close_deriv n p) (start_tag_close_deriv n' p)) by (intros; apply IH; lia). clear IH H.
  cbn [start_tag_close_deriv]. apply mle_bind; [apply mle_refl|]. intros x. destruct x; mono.
Qed.
Lemma end_mono n : forall n' p, n <= n' -> mle (end_tag_deriv n p) (end_tag_deriv n' p).
Proof.
  induction n as [|n IH]; intros [|n'] p H; try apply mle_oof; [lia|]. assert (K : forall p, mle (end_tag_deriv n p) (end_tag_deriv n' p)) by (intros; apply IH; lia). clear IH H.
  cbn [end_tag_deriv]. destruct p; mono.
Qed.
Lemma atts_mono n n' : n <= n' -> forall l p, mle (atts_deriv O n p l) (atts_deriv O n' p l).
Proof. intros L. induction l as [|a l IH]; intros p; cbn [atts_deriv]; [apply mle_refl|]. apply mle_bind; [apply att_mono, L|]. intros r. mono. Qed.
Lemma ces_mono n n' stk t p : n <= n' -> mle (close_element_start O n stk t p) (close_element_start O n' stk t p).
Proof.
  intros L. unfold close_element_start. repeat first [apply open_mono; exact L | apply atts_mono; exact L | apply close_mono; exact L | mono1].
Qed.
Lemma end_element_mono n n' b p : n <= n' -> mle (end_element O n b p) (end_element O n' b p).
Proof. intros L. unfold end_element. repeat first [apply text_mono; exact L | apply end_mono; exact L | mono1]. Qed.
Lemma step_mono n n' v t : n <= n' -> mle (validate_step O n v t) (validate_step O n' v t).
Proof.
  intros L. unfold validate_step. repeat first [apply text_mono; exact L | apply end_element_mono; exact L | apply ces_mono; exact L | mono1].
Qed.
Lemma validate_mono n n' v t : n <= n' -> le (validate O n v t) (validate O n' v t).
Proof. intros L. unfold validate. apply le_rbind; [apply step_mono, L|]. intros [r st]. apply le_refl. Qed.
Lemma run_mono n n' : n <= n' -> forall l v, le (run O n v l) (run O n' v l).
Proof.
  intros L. induction l as [|t l IH]; intros v; cbn [run]; [apply le_refl|]. apply le_rbind; [apply validate_mono, L|]. intros [v' [e|]]; [apply le_refl | apply IH].
Qed.
Lemma comp_list_mono op (f g : mpat -> M pid) : (forall x, mle (f x) (g x)) -> forall l, mle (comp_list op f l) (comp_list op g l).
Proof. intros H. induction l as [|x [|y l] IH]; cbn [comp_list]; [apply mle_refl | apply H|]. apply mle_bind; [exact IH|]. mono. Qed.
Lemma comp_mono defs n : forall n' p, n <= n' -> mle (compile defs n p) (compile defs n' p).
Proof.
  induction n as [|n IH]; intros [|n'] p H; try apply mle_oof; [lia|]. assert (K : forall p, mle (compile defs n p) (compile defs n' p)) by (intros; apply IH; lia). clear IH H.
  cbn [compile]. destruct p; repeat first [apply comp_list_mono; exact K | mono1].
Qed.
Lemma new_mono defs n n' s : n <= n' -> le (new_validator defs n s) (new_validator defs n' s).
Proof. intros L. unfold new_validator. destruct s as [X|]; [|apply le_refl]. apply le_rbind; [apply comp_mono, L|]. intros [? ?]. apply le_refl. Qed.
Lemma head_mono st n : forall n' r p, n <= n' -> le (head n st r p) (head n' st r p).
Proof.
  induction n as [|n IH]; intros [|n'] r p H; try (left; reflexivity); [lia|]. assert (K : forall r p, le (head n st r p) (head n' st r p)) by (intros; apply IH; lia). clear IH H.
  cbn [head]. destruct (nth_error _ p) as [x|]; [|apply le_refl]. destruct x; try apply le_refl; try apply K; try (apply le_rbind; auto).
  destruct (nth_error _ l) as [y|]; [|apply le_refl]. destruct (is_nullable y); [apply K|]. apply le_rbind; auto.
Qed.
Lemma diag_mono n n' ord v text e : n <= n' -> le (diagnostic n ord v text e) (diagnostic n' ord v text e).
Proof.
  intros L. unfold diagnostic. destruct e as [row|[] sp]; try apply le_refl. apply le_rbind; [apply le_refl|]. intros s. apply le_rbind; [apply head_mono, L|]. intros; apply le_refl.
Qed.
End Mono.
