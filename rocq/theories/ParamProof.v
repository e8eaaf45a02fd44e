(** * ParamProof: the parameters of a type are accepted, refused or make the compiler panic exactly as ParamSpec says. *)
From Coq Require Import QArith Qcanon String.
From Verif Require Import Base Datatype Facets DatatypeSpec DatatypeProof DatatypeProof2 DatatypeMain ParamSpec.
Local Open Scope N_scope.

(** ** The loops over the parameters as one loop *)
Section Loop.
Context {S : Type} (step : S -> str * str -> fres facet_error S).
Fixpoint go (s : S) (ps : params) : fres facet_error S :=
  match ps with [] => fok s | p :: ps' => fbind (step s p) (fun s' => go s' ps') end.
Lemma go_app s a b : go s (a ++ b) = fbind (go s a) (fun s' => go s' b).
Proof.
  revert s; induction a as [|p a IH]; intros s; [reflexivity|]. cbn [app go]. destruct (step s p) as [[s'|e]|x|]; cbn [fbind rbind]; [apply IH | reflexivity..].
Qed.
Variable C : coracles.
Variable F : family.
Variable Inv : params -> S -> Prop.
Definition step_ok (a : params) (s : S) (p : str * str) : Prop :=
  match step s p with
  | Ok (inl s') => Inv (a ++ [p]) s' /\ forall o, ~ Fault C F a p o
  | Ok (inr e) => forall o, Fault C F a p o <-> o = Wrong e
  | Panic _ => forall o, Fault C F a p o <-> o = Crash
  | OutOfFuel => False
  end.
Variable s0 : S.
Hypothesis Hinit : Inv [] s0.
Hypothesis Hstep : forall a s p, Inv a s -> step_ok a s p.
Definition acc (ps : params) : Prop := exists s, go s0 ps = Ok (inl s).
Lemma go_inv a : forall b s, Inv b s -> forall s', go s a = Ok (inl s') -> Inv (b ++ a) s'.
Proof.
  induction a as [|p a IH]; intros b s HI s' H; cbn [go] in H; [injection H as <-; rewrite app_nil_r; exact HI|].
  apply fbind_ok in H as (s1 & E1 & E2). pose proof (Hstep b s p HI) as K. unfold step_ok in K. rewrite E1 in K. destruct K as [K _].
  replace (b ++ p :: a) with ((b ++ [p]) ++ a) by (rewrite <- app_assoc; reflexivity). exact (IH _ _ K _ E2).
Qed.
Lemma acc_inv a s : go s0 a = Ok (inl s) -> Inv a s.
Proof. exact (go_inv a [] s0 Hinit s). Qed.
Lemma go_split ps : (exists s, go s0 ps = Ok (inl s)) \/ exists a p b s, ps = a ++ p :: b /\ go s0 a = Ok (inl s) /\ (forall s', step s p <> Ok (inl s')) /\
  go s0 ps = match step s p with Ok (inl s') => fok s' | Ok (inr e) => Ok (inr e) | Panic x => Panic x | OutOfFuel => OutOfFuel end.
Proof.
  induction ps as [|p ps IH] using rev_ind; [left; eexists; reflexivity|]. destruct IH as [(s & E)|(a & q & b & s & -> & E1 & E2 & E3)].
  - destruct (step s p) as [[s'|e]|x|] eqn:Es; [left; exists s'|right; exists ps, p, [], s ..].
    + rewrite go_app, E. cbn [fbind rbind go]. rewrite Es. reflexivity.
    + split; [reflexivity|]. split; [exact E|]. split; [intros s' K; congruence|]. rewrite go_app, E. cbn [fbind rbind go]. rewrite Es. reflexivity.
    + split; [reflexivity|]. split; [exact E|]. split; [intros s' K; congruence|]. rewrite go_app, E. cbn [fbind rbind go]. rewrite Es. reflexivity.
    + split; [reflexivity|]. split; [exact E|]. split; [intros s' K; congruence|]. rewrite go_app, E. cbn [fbind rbind go]. rewrite Es. reflexivity.
  - right. exists a, q, (b ++ [p]), s. split; [rewrite <- app_assoc; reflexivity|]. split; [exact E1|]. split; [exact E2|].
    rewrite go_app, E3. destruct (step s q) as [[s'|e]|x|] eqn:Es; [exfalso; exact (E2 s' eq_refl) | reflexivity..].
Qed.
Lemma go_accept ps : acc ps <-> forall a p b, ps = a ++ p :: b -> forall o, ~ Fault C F a p o.
Proof.
  split.
  - intros (s & E) a p b -> o HF. rewrite go_app in E. apply fbind_ok in E as (s1 & E1 & E2). cbn [go] in E2. apply fbind_ok in E2 as (s2 & E2 & _).
    pose proof (Hstep a s1 p (acc_inv _ _ E1)) as K. unfold step_ok in K. rewrite E2 in K. exact (proj2 K o HF).
  - intros H. destruct (go_split ps) as [E|(a & p & b & s & -> & E1 & E2 & E3)]; [exact E|]. exfalso.
    pose proof (Hstep a s p (acc_inv _ _ E1)) as K. unfold step_ok in K. destruct (step s p) as [[s'|e]|x|]; [exact (E2 s' eq_refl)| | |exact K].
    + exact (H a p b eq_refl (Wrong e) (proj2 (K _) eq_refl)).
    + exact (H a p b eq_refl Crash (proj2 (K _) eq_refl)).
Qed.
Lemma go_wrong ps e : go s0 ps = Ok (inr e) <-> exists a p b, ps = a ++ p :: b /\ acc a /\ Fault C F a p (Wrong e).
Proof.
  split.
  - intros E. destruct (go_split ps) as [(s & E')|(a & p & b & s & -> & E1 & E2 & E3)]; [congruence|]. exists a, p, b. split; [reflexivity|]. split; [exists s; exact E1|].
    pose proof (Hstep a s p (acc_inv _ _ E1)) as K. unfold step_ok in K. rewrite E in E3. destruct (step s p) as [[s'|e']|x|]; try discriminate E3. injection E3 as <-. apply K. reflexivity.
  - intros (a & p & b & -> & (s & E1) & HF). rewrite go_app, E1. cbn [fbind rbind go]. pose proof (Hstep a s p (acc_inv _ _ E1)) as K. unfold step_ok in K.
    destruct (step s p) as [[s'|e']|x|]; [exfalso; exact (proj2 K _ HF)| | |destruct K]; apply K in HF; [injection HF as <-; reflexivity | discriminate HF].
Qed.
Lemma go_crash ps : (exists x, go s0 ps = Panic x) <-> exists a p b, ps = a ++ p :: b /\ acc a /\ Fault C F a p Crash.
Proof.
  split.
  - intros (x & E). destruct (go_split ps) as [(s & E')|(a & p & b & s & -> & E1 & E2 & E3)]; [congruence|]. exists a, p, b. split; [reflexivity|]. split; [exists s; exact E1|].
    pose proof (Hstep a s p (acc_inv _ _ E1)) as K. unfold step_ok in K. rewrite E in E3. destruct (step s p) as [[s'|e']|y|]; try discriminate E3. apply K. reflexivity.
  - intros (a & p & b & -> & (s & E1) & HF). rewrite go_app, E1. cbn [fbind rbind go]. pose proof (Hstep a s p (acc_inv _ _ E1)) as K. unfold step_ok in K.
    destruct (step s p) as [[s'|e']|x|]; [exfalso; exact (proj2 K _ HF)| | |destruct K]; apply K in HF; [discriminate HF | exists x; reflexivity].
Qed.
End Loop.

(** ** Numerals *)
Lemma size_ok v : match p_usize v with Ok (inl k) => Size v (Z.of_N k) | Ok (inr e) => e = FInvalidInt /\ forall k, ~ Size v k | _ => False end.
Proof.
  unfold p_usize. destruct (parse_unsigned 18446744073709551615 v) as [z|] eqn:E; cbn.
  - apply parse_unsigned_lit in E as [E Hz]. rewrite Z2N.id by lia. split; [exact E | lia].
  - split; [reflexivity|]. intros k [Hk Hr]. assert (parse_unsigned 18446744073709551615 v = Some k) by (apply parse_unsigned_lit; split; [exact Hk | inversion Hk; lia]). congruence.
Qed.
Lemma small_ok v : match p_u16 v with Ok (inl k) => Small v (Z.of_N k) | Ok (inr e) => e = FInvalidInt /\ forall k, ~ Small v k | _ => False end.
Proof.
  unfold p_u16. destruct (parse_unsigned 65535 v) as [z|] eqn:E; cbn.
  - apply parse_unsigned_lit in E as [E Hz]. rewrite Z2N.id by lia. split; [exact E | lia].
  - split; [reflexivity|]. intros k [Hk Hr]. assert (parse_unsigned 65535 v = Some k) by (apply parse_unsigned_lit; split; [exact Hk | inversion Hk; lia]). congruence.
Qed.
Lemma Size_fun v k k' : Size v k -> Size v k' -> k = k'.
Proof. intros [H _] [H' _]. exact (Unsigned_fun _ _ _ H H'). Qed.
Ltac noname := let E := fresh in intros E; revert E; apply lit_neq; reflexivity.

(** ** Lengths *)
Definition len_inv (a : params) (f : length_facet) : Prop :=
  match f with
  | LUnbounded => forall n v, In (n, v) a -> ~ In n length_names
  | LMin m => (exists v, In (lit "minLength", v) a) /\ forall n v, In (n, v) a -> In n length_names -> n = lit "minLength" /\ Size v (Z.of_N m)
  | _ => closed_length a
  end.
Lemma length_names_lit n : In n length_names <-> n = lit "length" \/ n = lit "minLength" \/ n = lit "maxLength".
Proof. unfold length_names. cbn [In]. intuition congruence. Qed.
Lemma closed_in a : closed_length a -> exists n v, In (n, v) a /\ In n length_names /\ n <> lit "minLength".
Proof. intros (m & w & Hin & [-> | ->]); eexists _, w; (split; [exact Hin|]); (split; [apply length_names_lit; auto | noname]). Qed.
Lemma inv_unclosed a f : len_inv a f -> match f with LUnbounded | LMin _ => ~ closed_length a | _ => closed_length a end.
Proof.
  destruct f; cbn; intros H; try exact H; intros K; apply closed_in in K as (n0 & v & Hin & Hn & Hm).
  - exact (H _ _ Hin Hn).
  - exact (Hm (proj1 (proj2 H _ _ Hin Hn))).
Qed.
Lemma len_inv_other a f n v : ~ In n length_names -> len_inv a f -> len_inv (a ++ [(n, v)]) f.
Proof.
  intros Hn. assert (G : closed_length a -> closed_length (a ++ [(n, v)])) by (intros (m & w & H & K); exists m, w; split; [apply in_or_app; left; exact H | exact K]).
  destruct f; cbn; try exact G.
  - intros H m w Hin. apply in_app_or in Hin as [Hin|[E|[]]]; [exact (H _ _ Hin) | injection E as <- <-; exact Hn].
  - intros [(w & Hw) H]. split; [exists w; apply in_or_app; left; exact Hw|]. intros m' w' Hin Hm. apply in_app_or in Hin as [Hin|[E|[]]]; [exact (H _ _ Hin Hm) | injection E as <- <-; contradiction].
Qed.
(** the whole step on a length parameter, for both families *)
Lemma len_step C p a f n v : len_inv a f -> In n length_names ->
  exists r, length_param f n v = Some r /\
  match r with
  | Ok (inl f') => len_inv (a ++ [(n, v)]) f' /\ forall o, ~ Fault C (Lengths p) a (n, v) o
  | Ok (inr e) => forall o, Fault C (Lengths p) a (n, v) o <-> o = Wrong e
  | Panic _ => forall o, Fault C (Lengths p) a (n, v) o <-> o = Crash
  | OutOfFuel => False
  end.
Proof.
  intros HI Hn. assert (Hk : In n (allowed (Lengths p))) by (cbn [allowed]; apply in_or_app; left; exact Hn).
  assert (Hp : n <> lit "pattern") by (apply length_names_lit in Hn as [-> |[-> | ->]]; noname).
  pose proof (size_ok v) as HS.
  (* the value cannot be read *)
  assert (Hbad : (forall k, ~ Size v k) -> forall o, Fault C (Lengths p) a (n, v) o <-> o = Wrong FInvalidInt).
  { intros Hb o. split; [|intros ->; apply Fa_size; assumption]. intros H. inversion H; subst; try reflexivity; try contradiction; exfalso; eapply Hb; eassumption. }
  assert (Hx : forall (ctor : N -> length_facet), exists r, fbind (p_usize v) (fun k => merge_length f (ctor k)) = r /\
    ((exists k, p_usize v = Ok (inl k) /\ Size v (Z.of_N k) /\ r = merge_length f (ctor k)) \/ (r = Ok (inr FInvalidInt) /\ forall k, ~ Size v k))).
  { intros ctor. eexists; split; [reflexivity|]. destruct (p_usize v) as [[k|e]|x|]; try contradiction; cbn [fbind rbind]; [left; eauto | right; destruct HS as [-> HS]; auto]. }
  assert (Hcrash : forall k, Size v k -> closed_length a -> forall o, Fault C (Lengths p) a (n, v) o <-> o = Crash).
  { intros k Hs Hc o. split; [|intros ->; eapply Fa_again; eassumption]. intros H. inversion H; subst; try reflexivity; try contradiction; exfalso; try contradiction; match goal with K : forall k, ~ Size v k |- _ => exact (K _ Hs) end. }
  pose proof (inv_unclosed _ _ HI) as HU. unfold length_param.
  assert (Hfree : forall k, Size v k -> f = LUnbounded -> forall o, ~ Fault C (Lengths p) a (n, v) o).
  { intros k Hs -> o H. cbn in HI, HU. inversion H; subst; try contradiction; try (match goal with K : forall k, ~ Size v k |- _ => exact (K _ Hs) end);
      match goal with K : In (lit "minLength", _) a |- _ => exact (HI _ _ K ltac:(apply length_names_lit; auto)) end. }
  assert (Hin : forall m w, In (m, w) (a ++ [(n, v)]) <-> In (m, w) a \/ (m = n /\ w = v)).
  { intros m w. rewrite in_app_iff. cbn [In]. intuition (try congruence). }
  apply length_names_lit in Hn. destruct Hn as [-> |[-> | ->]].
  - change (is_name (lit "length") "length") with true. cbn iota. eexists; split; [reflexivity|]. destruct (Hx LLength) as (r & -> & [(k & Ek & Hs & ->)|[-> Hb]]); [|exact (Hbad Hb)].
    destruct f as [|m|m|m m'|m]; cbn [merge_length]; [| |exact (Hcrash _ Hs HU)..].
    + split; [|exact (Hfree _ Hs eq_refl)]. cbn. exists (lit "length"), v. split; [apply Hin; auto | auto].
    + cbn in HU. destruct HI as [(w & Hw) HI]. intros o. split; [|intros ->; eapply Fa_min_twice; eauto].
      intros H. inversion H; subst; try reflexivity; try contradiction; exfalso; try contradiction; match goal with K : forall k, ~ Size v k |- _ => exact (K _ Hs) end.
  - change (is_name (lit "minLength") "length") with false. change (is_name (lit "minLength") "minLength") with true. cbn iota. eexists; split; [reflexivity|].
    destruct (Hx LMin) as (r & -> & [(k & Ek & Hs & ->)|[-> Hb]]); [|exact (Hbad Hb)].
    destruct f as [|m|m|m m'|m]; cbn [merge_length]; [| |exact (Hcrash _ Hs HU)..].
    + split; [|exact (Hfree _ Hs eq_refl)]. cbn [len_inv]. split; [exists v; apply Hin; auto|]. intros m w Hm Hl. apply Hin in Hm as [Hm|[-> ->]]; [exfalso; exact (HI _ _ Hm Hl) | split; [reflexivity | exact Hs]].
    + cbn in HU. destruct HI as [(w & Hw) HI]. intros o. split; [|intros ->; eapply Fa_min_twice; eauto].
      intros H. inversion H; subst; try reflexivity; try contradiction; exfalso; try contradiction; match goal with K : forall k, ~ Size v k |- _ => exact (K _ Hs) end.
  - change (is_name (lit "maxLength") "length") with false. change (is_name (lit "maxLength") "minLength") with false. change (is_name (lit "maxLength") "maxLength") with true. cbn iota. eexists; split; [reflexivity|].
    destruct (Hx LMax) as (r & -> & [(k & Ek & Hs & ->)|[-> Hb]]); [|exact (Hbad Hb)].
    destruct f as [|m|m|m m'|m]; cbn [merge_length]; [| |exact (Hcrash _ Hs HU)..].
    + split; [|exact (Hfree _ Hs eq_refl)]. cbn. exists (lit "maxLength"), v. split; [apply Hin; auto | auto].
    + cbn in HU. destruct HI as [(w & Hw) HI]. destruct (HI _ _ Hw ltac:(apply length_names_lit; auto)) as [_ Hm].
      destruct (N.ltb_spec k m) as [Hlt|Hge].
      * intros o. split; [|intros ->; eapply Fa_max_below; eauto; lia].
        intros H. inversion H; subst; try reflexivity; try contradiction; exfalso; try contradiction; match goal with K : forall k, ~ Size v k |- _ => exact (K _ Hs) end.
      * split; [cbn; exists (lit "maxLength"), v; split; [apply Hin; auto | auto]|]. intros o H. inversion H; subst; try contradiction.
        -- match goal with K : forall k, ~ Size v k |- _ => exact (K _ Hs) end.
        -- match goal with K : _ = lit "length" \/ _ |- _ => vm_compute in K; intuition discriminate end.
        -- match goal with K : In (lit "minLength", ?w') a, K' : Size ?w' ?j |- _ => destruct (HI _ _ K ltac:(apply length_names_lit; auto)) as [_ Hm']; pose proof (Size_fun _ _ _ Hm' K') end.
           match goal with K : Size v ?k' |- _ => pose proof (Size_fun _ _ _ Hs K) end. lia.
Qed.
Lemma length_param_none f n v : ~ In n length_names -> length_param f n v = None.
Proof.
  intros H. unfold length_param. destruct (is_name n "length") eqn:E1; [names; subst; exfalso; apply H; apply length_names_lit; auto|].
  destruct (is_name n "minLength") eqn:E2; [names; subst; exfalso; apply H; apply length_names_lit; auto|].
  destruct (is_name n "maxLength") eqn:E3; [names; subst; exfalso; apply H; apply length_names_lit; auto|]. reflexivity.
Qed.
Definition len_loop (s : length_facet) (p : str * str) : fres facet_error length_facet :=
  match length_param s (fst p) (snd p) with Some r => r | None => ferr (FInvalidFacet (fst p)) end.
Lemma length_facets_go ps : forall f, length_facets f ps = go len_loop f ps.
Proof.
  induction ps as [|[n v] ps IH]; intros f; [reflexivity|]. cbn [length_facets go]. unfold len_loop; cbn [fst snd]. destruct (length_param f n v) as [r|]; [|reflexivity].
  unfold fbind. destruct r as [[f'|e]|x|]; cbn [rbind]; [apply IH | reflexivity..].
Qed.
Lemma in_name_dec (n : str) l : {In n l} + {~ In n l}.
Proof. apply in_dec, str_eq_dec. Qed.
(** a parameter the family does not have *)
Lemma unknown_only C F a n v : ~ In n (allowed F) -> forall o, Fault C F a (n, v) o <-> o = Wrong (FInvalidFacet n).
Proof.
  intros Hn o. split; [|intros ->; apply Fa_unknown; exact Hn]. intros H. inversion H; subst; try reflexivity; exfalso; try contradiction; apply Hn; cbn [allowed];
    rewrite ?in_app_iff; auto; try (left; apply length_names_lit; tauto).
Qed.
Lemma pattern_only C F a v : In (lit "pattern") (allowed F) -> forall o, Fault C F a (lit "pattern", v) o <-> co_regex_ok C v = false /\ o = Wrong FInvalidPattern.
Proof.
  intros Hp o. split; [|intros [H ->]; apply Fa_pattern; assumption]. intros H.
  inversion H; subst; try contradiction; try (split; [assumption | reflexivity]); exfalso;
    match goal with
    | K : In _ length_names |- _ => vm_compute in K; intuition discriminate
    | K : In _ bound_names |- _ => vm_compute in K; intuition discriminate
    | K : In _ digit_names |- _ => vm_compute in K; intuition discriminate
    | K : _ = lit "length" \/ _ |- _ => vm_compute in K; intuition discriminate
    end.
Qed.
Lemma len_step_ok C a s p : len_inv a s -> step_ok len_loop C (Lengths false) len_inv a s p.
Proof.
  intros HI. destruct p as [n v]. unfold step_ok, len_loop; cbn [fst snd]. destruct (in_name_dec n length_names) as [Hn|Hn].
  - destruct (len_step C false a s n v HI Hn) as (r & -> & H). exact H.
  - rewrite length_param_none by exact Hn. cbn. apply unknown_only. cbn [allowed]. rewrite app_nil_r. exact Hn.
Qed.
Definition str_loop (C : coracles) (s : length_facet * pattern_facet) (p : str * str) : fres facet_error (length_facet * pattern_facet) :=
  match length_param (fst s) (fst p) (snd p) with
  | Some r => fbind r (fun f => fok (f, snd s))
  | None => if is_name (fst p) "pattern" then fbind (c_pattern C (snd p)) (fun re => fok (fst s, Some re)) else ferr (FInvalidFacet (fst p))
  end.
Lemma string_facets_go C ps : forall f q, string_facets C f q ps = go (str_loop C) (f, q) ps.
Proof.
  induction ps as [|[n v] ps IH]; intros f q; [reflexivity|]. cbn [string_facets go]. unfold str_loop; cbn [fst snd]. destruct (length_param f n v) as [r|].
  - unfold fbind. destruct r as [[f'|e]|x|]; cbn; [apply IH | reflexivity..].
  - destruct (is_name n "pattern"); [|reflexivity]. unfold c_pattern. destruct (co_regex_ok C v); [|reflexivity]. cbn. apply IH.
Qed.
Lemma str_step_ok C a s p : len_inv a (fst s) -> step_ok (str_loop C) C (Lengths true) (fun a s => len_inv a (fst s)) a s p.
Proof.
  intros HI. destruct p as [n v], s as [f q]. unfold step_ok, str_loop; cbn [fst snd] in *. destruct (in_name_dec n length_names) as [Hn|Hn].
  - destruct (len_step C true a f n v HI Hn) as (r & -> & H). destruct r as [[f'|e]|x|]; exact H.
  - rewrite length_param_none by exact Hn. destruct (is_name n "pattern") eqn:En.
    + names; subst n. pose proof (pattern_only C (Lengths true) a v ltac:(cbn [allowed]; apply in_or_app; right; left; reflexivity)) as HP.
      unfold c_pattern. destruct (co_regex_ok C v) eqn:Er; cbn.
      * split; [apply len_inv_other; assumption|]. intros o H. apply HP in H as [H _]. congruence.
      * intros o. rewrite HP. tauto.
    + names. cbn. apply unknown_only. cbn [allowed]. rewrite in_app_iff. intros [H|[H|[]]]; congruence.
Qed.

(** ** Patterns *)
Definition pat_loop (C : coracles) (s : pattern_facet) (p : str * str) : fres facet_error pattern_facet :=
  if is_name (fst p) "pattern" then fbind (c_pattern C (snd p)) (fun re => fok (Some re)) else ferr (FInvalidFacet (fst p)).
Lemma pattern_facets_go C ps : forall q, pattern_facets C q ps = go (pat_loop C) q ps.
Proof.
  induction ps as [|[n v] ps IH]; intros q; [reflexivity|]. cbn [pattern_facets go]. unfold pat_loop; cbn [fst snd]. destruct (is_name n "pattern"); [|reflexivity].
  unfold c_pattern. destruct (co_regex_ok C v); [|reflexivity]. cbn. apply IH.
Qed.
Lemma pat_step_ok C a s p : step_ok (pat_loop C) C Patterns (fun _ _ => True) a s p.
Proof.
  destruct p as [n v]. unfold step_ok, pat_loop; cbn [fst snd]. destruct (is_name n "pattern") eqn:En.
  - names; subst n. pose proof (pattern_only C Patterns a v ltac:(left; reflexivity)) as HP. unfold c_pattern. destruct (co_regex_ok C v) eqn:Er; cbn.
    + split; [exact I|]. intros o H. apply HP in H as [H _]. congruence.
    + intros o. rewrite HP. tauto.
  - names. cbn. apply unknown_only. cbn [allowed]. intros [H|[]]; congruence.
Qed.

(** ** Bounds *)
Section Bounds.
Context {T : Type} (emb : T -> Qc) (ltb leb : T -> T -> bool) (parse : str -> fres facet_error T) (reads : str -> Qc -> Prop) (bad : facet_error).
Hypothesis Hle : forall a b, leb a b = true <-> (emb a <= emb b)%Qc.
Hypothesis Hlt : forall a b, ltb a b = true <-> (emb a < emb b)%Qc.
Hypothesis Hparse : forall v, match parse v with Ok (inl k) => reads v (emb k) | Ok (inr e) => e = bad /\ forall k, ~ reads v k | _ => False end.
Hypothesis Hfun : forall v k k', reads v k -> reads v k' -> k = k'.
Definition side_inv (incl excl : str) (a : params) (b : bound T) : Prop :=
  match b with
  | BUnbounded => forall w, ~ In (incl, w) a /\ ~ In (excl, w) a
  | BIncl k => (exists w, In (incl, w) a /\ reads w (emb k)) /\ (forall w j, In (incl, w) a -> reads w j -> j = emb k) /\ forall w, ~ In (excl, w) a
  | BExcl k => (exists w, In (excl, w) a /\ reads w (emb k)) /\ (forall w j, In (excl, w) a -> reads w j -> j = emb k) /\ forall w, ~ In (incl, w) a
  end.
Definition bound_inv (a : params) (f : minmax T) : Prop :=
  side_inv (lit "minInclusive") (lit "minExclusive") a (mm_min f) /\ side_inv (lit "maxInclusive") (lit "maxExclusive") a (mm_max f).
Lemma side_other i e a b n v : n <> i -> n <> e -> side_inv i e a b -> side_inv i e (a ++ [(n, v)]) b.
Proof.
  intros Hi He. assert (G : forall m w, In (m, w) (a ++ [(n, v)]) -> In (m, w) a \/ m = n) by (intros m w H; apply in_app_or in H as [H|[H|[]]]; [auto | injection H; auto]).
  destruct b as [|k|k]; cbn.
  - intros H w. split; intros K; apply G in K as [K|K]; try congruence; [exact (proj1 (H w) K) | exact (proj2 (H w) K)].
  - intros ((w & H1 & H2) & H3 & H4). split; [exists w; split; [apply in_or_app; auto | exact H2]|]. split; [intros w' j K; apply G in K as [K|K]; [apply H3; exact K | congruence] | intros w' K; apply G in K as [K|K]; [exact (H4 _ K) | congruence]].
  - intros ((w & H1 & H2) & H3 & H4). split; [exists w; split; [apply in_or_app; auto | exact H2]|]. split; [intros w' j K; apply G in K as [K|K]; [apply H3; exact K | congruence] | intros w' K; apply G in K as [K|K]; [exact (H4 _ K) | congruence]].
Qed.
Lemma side_set_incl i e a k v : i <> e -> (forall w, ~ In (i, w) a /\ ~ In (e, w) a) -> reads v (emb k) -> side_inv i e (a ++ [(i, v)]) (BIncl k).
Proof.
  intros Hie H Hr. split; [exists v; split; [apply in_or_app; right; left; reflexivity | exact Hr]|]. split.
  - intros w j K Hj. apply in_app_or in K as [K|[K|[]]]; [exfalso; exact (proj1 (H w) K) | injection K as <-; exact (Hfun _ _ _ Hj Hr)].
  - intros w K. apply in_app_or in K as [K|[K|[]]]; [exact (proj2 (H w) K) | injection K as K _; congruence].
Qed.
Lemma side_set_excl i e a k v : i <> e -> (forall w, ~ In (i, w) a /\ ~ In (e, w) a) -> reads v (emb k) -> side_inv i e (a ++ [(e, v)]) (BExcl k).
Proof.
  intros Hie H Hr. split; [exists v; split; [apply in_or_app; right; left; reflexivity | exact Hr]|]. split.
  - intros w j K Hj. apply in_app_or in K as [K|[K|[]]]; [exfalso; exact (proj2 (H w) K) | injection K as <-; exact (Hfun _ _ _ Hj Hr)].
  - intros w K. apply in_app_or in K as [K|[K|[]]]; [exact (proj1 (H w) K) | injection K as K _; congruence].
Qed.
Lemma bound_names_lit n : In n bound_names <-> n = lit "minInclusive" \/ n = lit "minExclusive" \/ n = lit "maxInclusive" \/ n = lit "maxExclusive".
Proof. unfold bound_names. cbn [In]. intuition congruence. Qed.
Lemma bound_param_no f n v : ~ In n bound_names -> bound_param ltb leb parse f n v = None.
Proof.
  intros H. unfold bound_param.
  destruct (is_name n "minInclusive") eqn:E1; [names; subst; exfalso; apply H; apply bound_names_lit; auto|].
  destruct (is_name n "minExclusive") eqn:E2; [names; subst; exfalso; apply H; apply bound_names_lit; auto|].
  destruct (is_name n "maxInclusive") eqn:E3; [names; subst; exfalso; apply H; apply bound_names_lit; auto|].
  destruct (is_name n "maxExclusive") eqn:E4; [names; subst; exfalso; apply H; apply bound_names_lit; auto|]. reflexivity.
Qed.
Variable C : coracles.
Variable d : bool.
Notation FN := (Numbers reads d bad).
Definition clashes (a : params) (n : str) (k : Qc) : Prop := exists m w j, In (m, w) a /\ reads w j /\ Clash (m, j) (n, k).
(** what may be wrong with a bound *)
Lemma bound_unread a n v : In n bound_names -> (forall k, ~ reads v k) -> forall o, Fault C FN a (n, v) o <-> o = Wrong bad.
Proof.
  intros Hn Hb o. split; [|intros ->; apply Fa_number; assumption]. intros H. inversion H; subst; try reflexivity; exfalso.
  - match goal with K : ~ In n _ |- _ => apply K; cbn [allowed]; apply in_or_app; left; exact Hn end.
  - vm_compute in Hn. intuition discriminate.
  - eapply Hb; eassumption.
  - eapply Hb; eassumption.
  - apply bound_names_lit in Hn. match goal with K : In n digit_names |- _ => destruct K as [K|[K|[]]]; subst n end; vm_compute in Hn; intuition discriminate.
Qed.
Lemma bound_clash a n v k : In n bound_names -> reads v k -> clashes a n k -> forall o, Fault C FN a (n, v) o <-> o = Wrong FConflict.
Proof.
  intros Hn Hr (m & w & j & Hin & Hj & HC) o. split; [|intros ->; eapply Fa_clash; eassumption]. intros H. inversion H; subst; try reflexivity; exfalso.
  - match goal with K : ~ In n _ |- _ => apply K; cbn [allowed]; apply in_or_app; left; exact Hn end.
  - vm_compute in Hn. intuition discriminate.
  - match goal with K : forall k, ~ reads v k |- _ => exact (K _ Hr) end.
  - match goal with K : reads v ?k' |- _ => rewrite (Hfun _ _ _ Hr K) in HC end. match goal with K : forall m w j, In (m, w) a -> _ |- _ => exact (K _ _ _ Hin Hj HC) end.
  - apply bound_names_lit in Hn. match goal with K : In n digit_names |- _ => destruct K as [K|[K|[]]]; subst n end; vm_compute in Hn; intuition discriminate.
Qed.
Lemma bound_again a n v k : In n bound_names -> reads v k -> ~ clashes a n k -> In n (map fst a) -> forall o, Fault C FN a (n, v) o <-> o = Crash.
Proof.
  intros Hn Hr HC Hin o. split; [|intros ->; eapply Fa_twice; [eassumption | eassumption | eassumption|]; intros m w j H1 H2 H3; apply HC; exists m, w, j; auto].
  intros H. inversion H; subst; try reflexivity; exfalso.
  - match goal with K : ~ In n _ |- _ => apply K; cbn [allowed]; apply in_or_app; left; exact Hn end.
  - vm_compute in Hn. intuition discriminate.
  - match goal with K : forall k, ~ reads v k |- _ => exact (K _ Hr) end.
  - match goal with K : reads v ?k' |- _ => rewrite <- (Hfun _ _ _ Hr K) in * end. apply HC. do 3 eexists. split; [|split]; eassumption.
  - apply bound_names_lit in Hn. match goal with K : In n digit_names |- _ => destruct K as [K|[K|[]]]; subst n end; vm_compute in Hn; intuition discriminate.
Qed.
Lemma bound_fine a n v k : In n bound_names -> reads v k -> ~ clashes a n k -> ~ In n (map fst a) -> forall o, ~ Fault C FN a (n, v) o.
Proof.
  intros Hn Hr HC Hin o H. inversion H; subst.
  - match goal with K : ~ In n _ |- _ => apply K; cbn [allowed]; apply in_or_app; left; exact Hn end.
  - vm_compute in Hn. intuition discriminate.
  - match goal with K : forall k, ~ reads v k |- _ => exact (K _ Hr) end.
  - match goal with K : reads v ?k' |- _ => rewrite <- (Hfun _ _ _ Hr K) in * end. apply HC. do 3 eexists. split; [|split]; eassumption.
  - contradiction.
  - apply bound_names_lit in Hn. match goal with K : In n digit_names |- _ => destruct K as [K|[K|[]]]; subst n end; vm_compute in Hn; intuition discriminate.
Qed.
Lemma in_fst (a : params) n : In n (map fst a) <-> exists w, In (n, w) a.
Proof. rewrite in_map_iff. split; [intros ([m w] & <- & H); eauto | intros (w & H); exists (n, w); auto]. Qed.
(** when a bound clashes, by the state *)
Lemma clash_min a f n k : bound_inv a f -> n = lit "minInclusive" \/ n = lit "minExclusive" ->
  (clashes a n k <-> (exists w j, In (if is_name n "minInclusive" then lit "minExclusive" else lit "minInclusive", w) a /\ reads w j) \/
     match mm_max f with BUnbounded => False | BIncl j => (emb j < k)%Qc | BExcl j => (emb j <= k)%Qc end).
Proof.
  intros [_ HM] Hn. split.
  - intros (m & w & j & Hin & Hj & HC). remember (m, j) as x eqn:Ex. remember (n, k) as y eqn:Ey. destruct HC as [j' k'|j' k'|j' k'|j' k'|j' k' n' Hn' Hl|j' k' n' Hn' Hl|j' k' n' Hn' Hl|j' k' n' Hn' Hl]; injection Ex as <- <-; injection Ey as <- <-.
    + left. exists w, j'. split; [exact Hin | exact Hj].
    + left. exists w, j'. split; [exact Hin | exact Hj].
    + exfalso. destruct Hn as [Hn|Hn]; vm_compute in Hn; discriminate Hn.
    + exfalso. destruct Hn as [Hn|Hn]; vm_compute in Hn; discriminate Hn.
    + exfalso. destruct Hn as [-> | ->], Hn' as [Hn'|Hn']; vm_compute in Hn'; discriminate Hn'.
    + exfalso. destruct Hn as [-> | ->], Hn' as [Hn'|Hn']; vm_compute in Hn'; discriminate Hn'.
    + right. destruct (mm_max f) as [|q|q]; cbn [side_inv] in HM; [exact (proj1 (HM w) Hin) | |exfalso; exact (proj2 (proj2 HM) w Hin)]. rewrite <- (proj1 (proj2 HM) w j' Hin Hj). exact Hl.
    + right. destruct (mm_max f) as [|q|q]; cbn [side_inv] in HM; [exact (proj2 (HM w) Hin) |exfalso; exact (proj2 (proj2 HM) w Hin)|]. rewrite <- (proj1 (proj2 HM) w j' Hin Hj). exact Hl.
  - intros [(w & j & Hin & Hj)|H].
    + eexists _, w, j. split; [exact Hin|]. split; [exact Hj|]. destruct Hn as [-> | ->]; [apply Cl_min_ei | apply Cl_min_ie].
    + destruct (mm_max f) as [|q|q]; cbn [side_inv] in HM; [destruct H| |]; destruct HM as ((w & Hin & Hw) & _); eexists _, w, _; (split; [exact Hin|]); (split; [exact Hw|]); [apply Cl_up_i | apply Cl_up_e]; assumption.
Qed.
Lemma clash_max a f n k : bound_inv a f -> n = lit "maxInclusive" \/ n = lit "maxExclusive" ->
  (clashes a n k <-> (exists w j, In (if is_name n "maxInclusive" then lit "maxExclusive" else lit "maxInclusive", w) a /\ reads w j) \/
     match mm_min f with BUnbounded => False | BIncl j => (k < emb j)%Qc | BExcl j => (k <= emb j)%Qc end).
Proof.
  intros [HM _] Hn. split.
  - intros (m & w & j & Hin & Hj & HC). remember (m, j) as x eqn:Ex. remember (n, k) as y eqn:Ey. destruct HC as [j' k'|j' k'|j' k'|j' k'|j' k' n' Hn' Hl|j' k' n' Hn' Hl|j' k' n' Hn' Hl|j' k' n' Hn' Hl]; injection Ex as <- <-; injection Ey as <- <-.
    + exfalso. destruct Hn as [Hn|Hn]; vm_compute in Hn; discriminate Hn.
    + exfalso. destruct Hn as [Hn|Hn]; vm_compute in Hn; discriminate Hn.
    + left. exists w, j'. split; [exact Hin | exact Hj].
    + left. exists w, j'. split; [exact Hin | exact Hj].
    + right. destruct (mm_min f) as [|q|q]; cbn [side_inv] in HM; [exact (proj1 (HM w) Hin) | |exfalso; exact (proj2 (proj2 HM) w Hin)]. rewrite <- (proj1 (proj2 HM) w j' Hin Hj). exact Hl.
    + right. destruct (mm_min f) as [|q|q]; cbn [side_inv] in HM; [exact (proj2 (HM w) Hin) |exfalso; exact (proj2 (proj2 HM) w Hin)|]. rewrite <- (proj1 (proj2 HM) w j' Hin Hj). exact Hl.
    + exfalso. destruct Hn as [-> | ->], Hn' as [Hn'|Hn']; vm_compute in Hn'; discriminate Hn'.
    + exfalso. destruct Hn as [-> | ->], Hn' as [Hn'|Hn']; vm_compute in Hn'; discriminate Hn'.
  - intros [(w & j & Hin & Hj)|H].
    + eexists _, w, j. split; [exact Hin|]. split; [exact Hj|]. destruct Hn as [-> | ->]; [apply Cl_max_ei | apply Cl_max_ie].
    + destruct (mm_min f) as [|q|q]; cbn [side_inv] in HM; [destruct H| |]; destruct HM as ((w & Hin & Hw) & _); eexists _, w, _; (split; [exact Hin|]); (split; [exact Hw|]); [apply Cl_down_i | apply Cl_down_e]; assumption.
Qed.
Definition step_bound (a : params) (n v : str) (r : fres facet_error (minmax T)) : Prop :=
  match r with
  | Ok (inl f') => bound_inv (a ++ [(n, v)]) f' /\ forall o, ~ Fault C FN a (n, v) o
  | Ok (inr e) => forall o, Fault C FN a (n, v) o <-> o = Wrong e
  | Panic _ => forall o, Fault C FN a (n, v) o <-> o = Crash
  | OutOfFuel => False
  end.
Lemma step_bound_read a n v (g : T -> fres facet_error (minmax T)) : In n bound_names -> (forall k, reads v (emb k) -> step_bound a n v (g k)) -> step_bound a n v (fbind (parse v) g).
Proof.
  intros Hn H. pose proof (Hparse v) as K. destruct (parse v) as [[k|e]|x|]; cbn [fbind rbind]; [exact (H k K) | |contradiction..]. destruct K as [-> K]. exact (bound_unread a n v Hn K).
Qed.
Lemma bound_step a f n v : bound_inv a f -> In n bound_names -> exists r, bound_param ltb leb parse f n v = Some r /\ step_bound a n v r.
Proof.
  intros HI Hn. pose proof (proj1 (bound_names_lit n) Hn) as Hn'. unfold bound_param. destruct Hn' as [-> |[-> |[-> | ->]]].
  - change (is_name (lit "minInclusive") "minInclusive") with true. cbn iota. eexists; split; [reflexivity|]. apply step_bound_read; [exact Hn|]. intros k Hk.
    pose proof (clash_min a f (lit "minInclusive") (emb k) HI (or_introl eq_refl)) as HC. change (is_name (lit "minInclusive") "minInclusive") with true in HC. cbn iota in HC.
    destruct HI as [Hm HM]. destruct f as [mn mx]; cbn [mm_min mm_max] in *. unfold min_inclusive; cbn [mm_min mm_max].
    assert (G : (match mx with BUnbounded => False | BIncl j => (emb j < emb k)%Qc | BExcl j => (emb j <= emb k)%Qc end) -> step_bound a (lit "minInclusive") v (ferr FConflict)) by (intros K; unfold step_bound, ferr; cbv beta iota; apply (bound_clash a _ v (emb k) Hn Hk); apply HC; right; exact K).
    assert (G2 : ~ (match mx with BUnbounded => False | BIncl j => (emb j < emb k)%Qc | BExcl j => (emb j <= emb k)%Qc end) ->
      step_bound a (lit "minInclusive") v (match mn with BUnbounded => fok (MinMax (BIncl k) mx) | BIncl _ => Panic PUnreachable | BExcl _ => ferr FConflict end)).
    { intros K. destruct mn as [|m|m]; cbn [side_inv] in Hm.
      - split; [split; cbn [mm_min mm_max]; [apply side_set_incl; [noname | exact Hm | exact Hk] | apply side_other; [noname | noname | exact HM]]|].
        apply (bound_fine a _ v (emb k) Hn Hk).
        + intros HK. apply HC in HK as [(w & j & Hin & _)|HK]; [exact (proj2 (Hm w) Hin) | exact (K HK)].
        + intros HK. apply in_fst in HK as (w & HK). exact (proj1 (Hm w) HK).
      - destruct Hm as ((w & Hin & Hw) & H2 & H3). unfold step_bound; cbv beta iota; apply (bound_again a _ v (emb k) Hn Hk).
        + intros HK. apply HC in HK as [(w' & j & Hin' & _)|HK]; [exact (H3 w' Hin') | exact (K HK)].
        + apply in_fst. exists w. exact Hin.
      - destruct Hm as ((w & Hin & Hw) & H2 & H3). unfold step_bound, ferr; cbv beta iota; apply (bound_clash a _ v (emb k) Hn Hk). apply HC. left. exists w, (emb m). auto. }
    destruct mx as [|q|q].
    + apply G2. tauto.
    + destruct (ltb q k) eqn:El; [apply G, Hlt, El | apply G2; intros K; apply Hlt in K; congruence].
    + destruct (leb q k) eqn:El; [apply G, Hle, El | apply G2; intros K; apply Hle in K; congruence].
  - change (is_name (lit "minExclusive") "minInclusive") with false. change (is_name (lit "minExclusive") "minExclusive") with true. cbn iota. eexists; split; [reflexivity|]. apply step_bound_read; [exact Hn|]. intros k Hk.
    pose proof (clash_min a f (lit "minExclusive") (emb k) HI (or_intror eq_refl)) as HC. change (is_name (lit "minExclusive") "minInclusive") with false in HC. cbn iota in HC.
    destruct HI as [Hm HM]. destruct f as [mn mx]; cbn [mm_min mm_max] in *. unfold min_exclusive; cbn [mm_min mm_max]. set (cf := match mx with BUnbounded => false | BIncl m => ltb m k | BExcl m => leb m k end).
    assert (Hcf : cf = true <-> match mx with BUnbounded => False | BIncl j => (emb j < emb k)%Qc | BExcl j => (emb j <= emb k)%Qc end) by (unfold cf; destruct mx; [split; [discriminate | tauto] | apply Hlt | apply Hle]).
    destruct cf; [unfold step_bound, ferr; cbv beta iota; apply (bound_clash a _ v (emb k) Hn Hk); apply HC; right; apply Hcf; reflexivity|]. destruct mn as [|m|m]; cbn [side_inv] in Hm.
    + split; [split; cbn [mm_min mm_max]; [apply side_set_excl; [noname | exact Hm | exact Hk] | apply side_other; [noname | noname | exact HM]]|].
      apply (bound_fine a _ v (emb k) Hn Hk).
      * intros HK. apply HC in HK as [(w & j & Hin & _)|HK]; [exact (proj1 (Hm w) Hin) | apply Hcf in HK; discriminate HK].
      * intros HK. apply in_fst in HK as (w & HK). exact (proj2 (Hm w) HK).
    + destruct Hm as ((w & Hin & Hw) & H2 & H3). unfold step_bound, ferr; cbv beta iota; apply (bound_clash a _ v (emb k) Hn Hk). apply HC. left. exists w, (emb m). auto.
    + destruct Hm as ((w & Hin & Hw) & H2 & H3). unfold step_bound; cbv beta iota; apply (bound_again a _ v (emb k) Hn Hk).
      * intros HK. apply HC in HK as [(w' & j & Hin' & _)|HK]; [exact (H3 w' Hin') | apply Hcf in HK; discriminate HK].
      * apply in_fst. exists w. exact Hin.
  - change (is_name (lit "maxInclusive") "minInclusive") with false. change (is_name (lit "maxInclusive") "minExclusive") with false. change (is_name (lit "maxInclusive") "maxInclusive") with true. cbn iota. eexists; split; [reflexivity|]. apply step_bound_read; [exact Hn|]. intros k Hk.
    pose proof (clash_max a f (lit "maxInclusive") (emb k) HI (or_introl eq_refl)) as HC. change (is_name (lit "maxInclusive") "maxInclusive") with true in HC. cbn iota in HC.
    destruct HI as [Hm HM]. destruct f as [mn mx]; cbn [mm_min mm_max] in *. unfold max_inclusive; cbn [mm_min mm_max]. set (cf := match mn with BUnbounded => false | BIncl m => ltb k m | BExcl m => leb k m end).
    assert (Hcf : cf = true <-> match mn with BUnbounded => False | BIncl j => (emb k < emb j)%Qc | BExcl j => (emb k <= emb j)%Qc end) by (unfold cf; destruct mn; [split; [discriminate | tauto] | apply Hlt | apply Hle]).
    destruct cf; [unfold step_bound, ferr; cbv beta iota; apply (bound_clash a _ v (emb k) Hn Hk); apply HC; right; apply Hcf; reflexivity|]. destruct mx as [|m|m]; cbn [side_inv] in HM.
    + split; [split; cbn [mm_min mm_max]; [apply side_other; [noname | noname | exact Hm] | apply side_set_incl; [noname | exact HM | exact Hk]]|].
      apply (bound_fine a _ v (emb k) Hn Hk).
      * intros HK. apply HC in HK as [(w & j & Hin & _)|HK]; [exact (proj2 (HM w) Hin) | apply Hcf in HK; discriminate HK].
      * intros HK. apply in_fst in HK as (w & HK). exact (proj1 (HM w) HK).
    + destruct HM as ((w & Hin & Hw) & H2 & H3). unfold step_bound; cbv beta iota; apply (bound_again a _ v (emb k) Hn Hk).
      * intros HK. apply HC in HK as [(w' & j & Hin' & _)|HK]; [exact (H3 w' Hin') | apply Hcf in HK; discriminate HK].
      * apply in_fst. exists w. exact Hin.
    + destruct HM as ((w & Hin & Hw) & H2 & H3). unfold step_bound, ferr; cbv beta iota; apply (bound_clash a _ v (emb k) Hn Hk). apply HC. left. exists w, (emb m). auto.
  - change (is_name (lit "maxExclusive") "minInclusive") with false. change (is_name (lit "maxExclusive") "minExclusive") with false. change (is_name (lit "maxExclusive") "maxInclusive") with false. change (is_name (lit "maxExclusive") "maxExclusive") with true. cbn iota. eexists; split; [reflexivity|]. apply step_bound_read; [exact Hn|]. intros k Hk.
    pose proof (clash_max a f (lit "maxExclusive") (emb k) HI (or_intror eq_refl)) as HC. change (is_name (lit "maxExclusive") "maxInclusive") with false in HC. cbn iota in HC.
    destruct HI as [Hm HM]. destruct f as [mn mx]; cbn [mm_min mm_max] in *. unfold max_exclusive; cbn [mm_min mm_max]. set (cf := match mn with BUnbounded => false | BIncl m => ltb k m | BExcl m => leb k m end).
    assert (Hcf : cf = true <-> match mn with BUnbounded => False | BIncl j => (emb k < emb j)%Qc | BExcl j => (emb k <= emb j)%Qc end) by (unfold cf; destruct mn; [split; [discriminate | tauto] | apply Hlt | apply Hle]).
    destruct cf; [unfold step_bound, ferr; cbv beta iota; apply (bound_clash a _ v (emb k) Hn Hk); apply HC; right; apply Hcf; reflexivity|]. destruct mx as [|m|m]; cbn [side_inv] in HM.
    + split; [split; cbn [mm_min mm_max]; [apply side_other; [noname | noname | exact Hm] | apply side_set_excl; [noname | exact HM | exact Hk]]|].
      apply (bound_fine a _ v (emb k) Hn Hk).
      * intros HK. apply HC in HK as [(w & j & Hin & _)|HK]; [exact (proj1 (HM w) Hin) | apply Hcf in HK; discriminate HK].
      * intros HK. apply in_fst in HK as (w & HK). exact (proj2 (HM w) HK).
    + destruct HM as ((w & Hin & Hw) & H2 & H3). unfold step_bound, ferr; cbv beta iota; apply (bound_clash a _ v (emb k) Hn Hk). apply HC. left. exists w, (emb m). auto.
    + destruct HM as ((w & Hin & Hw) & H2 & H3). unfold step_bound; cbv beta iota; apply (bound_again a _ v (emb k) Hn Hk).
      * intros HK. apply HC in HK as [(w' & j & Hin' & _)|HK]; [exact (H3 w' Hin') | apply Hcf in HK; discriminate HK].
      * apply in_fst. exists w. exact Hin.
Qed.
Lemma bound_inv_other a f n v : ~ In n bound_names -> bound_inv a f -> bound_inv (a ++ [(n, v)]) f.
Proof. intros Hn [H1 H2]. split; apply side_other; try assumption; intros ->; apply Hn; apply bound_names_lit; auto. Qed.
End Bounds.
(** the loops of the types with bounds *)
Section BoundLoop.
Context {T : Type} (emb : T -> Qc) (ltb leb : T -> T -> bool) (parse : str -> fres facet_error T) (reads : str -> Qc -> Prop) (bad : facet_error).
Hypothesis Hle : forall a b, leb a b = true <-> (emb a <= emb b)%Qc.
Hypothesis Hlt : forall a b, ltb a b = true <-> (emb a < emb b)%Qc.
Hypothesis Hparse : forall v, match parse v with Ok (inl k) => reads v (emb k) | Ok (inr e) => e = bad /\ forall k, ~ reads v k | _ => False end.
Hypothesis Hfun : forall v k k', reads v k -> reads v k' -> k = k'.
Variable C : coracles.
Definition bnd_loop (s : minmax T * pattern_facet) (p : str * str) : fres facet_error (minmax T * pattern_facet) :=
  match bound_param ltb leb parse (fst s) (fst p) (snd p) with
  | Some r => fbind r (fun f => fok (f, snd s))
  | None => if is_name (fst p) "pattern" then fbind (c_pattern C (snd p)) (fun re => fok (fst s, Some re)) else ferr (FInvalidFacet (fst p))
  end.
Lemma bound_facets_go ps : forall f q, bound_facets C ltb leb parse f q ps = go bnd_loop (f, q) ps.
Proof.
  induction ps as [|[n v] ps IH]; intros f q; [reflexivity|]. cbn [bound_facets go]. unfold bnd_loop; cbn [fst snd]. destruct (bound_param ltb leb parse f n v) as [r|].
  - unfold fbind. destruct r as [[f'|e]|x|]; cbn; [apply IH | reflexivity..].
  - destruct (is_name n "pattern"); [|reflexivity]. unfold c_pattern. destruct (co_regex_ok C v); [|reflexivity]. cbn. apply IH.
Qed.
Lemma pattern_not_bound : ~ In (lit "pattern") bound_names.
Proof. vm_compute. intuition discriminate. Qed.
Lemma bnd_step_ok a s p : bound_inv emb reads a (fst s) -> step_ok bnd_loop C (Numbers reads false bad) (fun a s => bound_inv emb reads a (fst s)) a s p.
Proof.
  intros HI. destruct p as [n v], s as [f q]. unfold step_ok, bnd_loop; cbn [fst snd] in *. destruct (in_name_dec n bound_names) as [Hn|Hn].
  - destruct (bound_step emb ltb leb parse reads bad Hle Hlt Hparse Hfun C false a f n v HI Hn) as (r & -> & H). destruct r as [[f'|e]|x|]; exact H.
  - rewrite bound_param_no by exact Hn. destruct (is_name n "pattern") eqn:En.
    + names; subst n. pose proof (pattern_only C (Numbers reads false bad) a v ltac:(cbn [allowed]; apply in_or_app; right; left; reflexivity)) as HP.
      unfold c_pattern. destruct (co_regex_ok C v) eqn:Er; cbn.
      * split; [apply bound_inv_other; assumption|]. intros o H. apply HP in H as [H _]. congruence.
      * intros o. rewrite HP. tauto.
    + names. cbn. apply unknown_only. cbn [allowed]. rewrite in_app_iff. intros [H|[H|[]]]; congruence.
Qed.
Lemma bound_inv_init : bound_inv emb reads [] no_bounds.
Proof. split; intros w; split; intros []. Qed.
End BoundLoop.
(** decimal: also the numbers of digits *)
Definition dec_state := (minmax Qc * pattern_facet * option N * option N)%type.
Definition dec_loop (O : oracles) (C : coracles) (s : dec_state) (p : str * str) : fres facet_error dec_state :=
  let '(f, q, fd, td) := s in
  match bound_param qc_ltb qc_leb (p_decimal O) f (fst p) (snd p) with
  | Some r => fbind r (fun f' => fok (f', q, fd, td))
  | None => if is_name (fst p) "pattern" then fbind (c_pattern C (snd p)) (fun re => fok (f, Some re, fd, td))
            else if is_name (fst p) "fractionDigits" then fbind (p_u16 (snd p)) (fun k => fok (f, q, Some k, td))
            else if is_name (fst p) "totalDigits" then fbind (p_u16 (snd p)) (fun k => fok (f, q, fd, Some k))
            else ferr (FInvalidFacet (fst p))
  end.
Definition dec_type (s : dec_state) : xsd_type := let '(f, q, fd, td) := s in XDecimal f q fd td.
Lemma decimal_facets_go O C ps : forall f q fd td, decimal_facets O C f q fd td ps = fbind (go (dec_loop O C) (f, q, fd, td) ps) (fun s => fok (dec_type s)).
Proof.
  induction ps as [|[n v] ps IH]; intros f q fd td; [reflexivity|]. cbn [decimal_facets go]. unfold dec_loop at 1; cbn [fst snd]. destruct (bound_param qc_ltb qc_leb (p_decimal O) f n v) as [r|].
  - unfold fbind at 1. destruct r as [[f'|e]|x|]; cbn; [apply IH | reflexivity..].
  - destruct (is_name n "pattern"); [unfold c_pattern; destruct (co_regex_ok C v); [cbn; apply IH | reflexivity]|].
    destruct (is_name n "fractionDigits"); [destruct (p_u16 v) as [[k|e]|x|]; cbn; [apply IH | reflexivity..]|].
    destruct (is_name n "totalDigits"); [destruct (p_u16 v) as [[k|e]|x|]; cbn; [apply IH | reflexivity..]|]. reflexivity.
Qed.
Lemma digits_only C reads bad a n v : In n digit_names -> forall o, Fault C (Numbers reads true bad) a (n, v) o <-> (forall k, ~ Small v k) /\ o = Wrong FInvalidInt.
Proof.
  intros Hn o. assert (Hb : ~ In n bound_names) by (intros K; destruct Hn as [<-|[<-|[]]]; vm_compute in K; intuition discriminate).
  split; [|intros [H ->]; apply Fa_digits; assumption]. intros H. inversion H; subst; try contradiction; try (split; [assumption | reflexivity]); exfalso.
  - match goal with K : ~ In n _ |- _ => apply K; cbn [allowed]; apply in_or_app; right; right; exact Hn end.
  - vm_compute in Hn. intuition discriminate.
Qed.
Lemma p_decimal_ok O v : match p_decimal O v with Ok (inl k) => o_decimal O v = Some k | Ok (inr e) => e = FInvalidInt /\ forall k, o_decimal O v <> Some k | _ => False end.
Proof. unfold p_decimal. destruct (o_decimal O v); cbn; [reflexivity | split; [reflexivity | discriminate]]. Qed.
Lemma p_f64_ok C v : match p_f64 C v with Ok (inl k) => co_f64 C v = Some k | Ok (inr e) => e = FInvalidFloat /\ forall k, co_f64 C v <> Some k | _ => False end.
Proof. unfold p_f64. destruct (co_f64 C v); cbn; [reflexivity | split; [reflexivity | discriminate]]. Qed.
Definition dec_reads (O : oracles) (v : str) (k : Qc) : Prop := o_decimal O v = Some k.
Lemma dec_step_ok O C a s p : bound_inv (fun k => k) (dec_reads O) a (fst (fst (fst s))) ->
  step_ok (dec_loop O C) C (Numbers (dec_reads O) true FInvalidInt) (fun a s => bound_inv (fun k => k) (dec_reads O) a (fst (fst (fst s)))) a s p.
Proof.
  intros HI. destruct p as [n v], s as [[[f q] fd] td]. unfold step_ok, dec_loop; cbn [fst snd] in *. destruct (in_name_dec n bound_names) as [Hn|Hn].
  - destruct (bound_step (fun k => k) qc_ltb qc_leb (p_decimal O) (dec_reads O) FInvalidInt qc_leb_le qc_ltb_lt (p_decimal_ok O) ltac:(unfold dec_reads; congruence) C true a f n v HI Hn) as (r & -> & H).
    destruct r as [[f'|e]|x|]; exact H.
  - rewrite bound_param_no by exact Hn. destruct (is_name n "pattern") eqn:En.
    + names; subst n. pose proof (pattern_only C (Numbers (dec_reads O) true FInvalidInt) a v ltac:(cbn [allowed]; apply in_or_app; right; left; reflexivity)) as HP.
      unfold c_pattern. destruct (co_regex_ok C v) eqn:Er; cbn.
      * split; [apply bound_inv_other; assumption|]. intros o H. apply HP in H as [H _]. congruence.
      * intros o. rewrite HP. tauto.
    + assert (G : In n digit_names -> forall g : N -> dec_state, (forall k, fst (fst (fst (g k))) = f) -> match fbind (p_u16 v) (fun k => fok (g k)) with
        | Ok (inl s') => bound_inv (fun k => k) (dec_reads O) (a ++ [(n, v)]) (fst (fst (fst s'))) /\ forall o, ~ Fault C (Numbers (dec_reads O) true FInvalidInt) a (n, v) o
        | Ok (inr e) => forall o, Fault C (Numbers (dec_reads O) true FInvalidInt) a (n, v) o <-> o = Wrong e
        | Panic _ => forall o, Fault C (Numbers (dec_reads O) true FInvalidInt) a (n, v) o <-> o = Crash
        | OutOfFuel => False end).
      { intros Hd g Hg. pose proof (digits_only C (dec_reads O) FInvalidInt a n v Hd) as HD. pose proof (small_ok v) as HS.
        destruct (p_u16 v) as [[k|e]|x|]; try contradiction; cbn.
        - rewrite Hg. split; [apply bound_inv_other; assumption|]. intros o H. apply HD in H as [H _]. exact (H _ HS).
        - destruct HS as [-> HS]. intros o. rewrite HD. tauto. }
      destruct (is_name n "fractionDigits") eqn:E1; [names; subst n; apply (G ltac:(left; reflexivity) (fun k => (f, q, Some k, td))); reflexivity|].
      destruct (is_name n "totalDigits") eqn:E2; [names; subst n; apply (G ltac:(right; left; reflexivity) (fun k => (f, q, fd, Some k))); reflexivity|].
      names. cbn. apply unknown_only. cbn [allowed]. rewrite in_app_iff. unfold digit_names. intros [H|[H|[H|[H|[]]]]]; congruence.
Qed.

(** ** The types *)
Definition finish {S} (mk : S -> xsd_type) (r : fres facet_error S) : fres dt_error dt :=
  match r with Ok (inl s) => Ok (inl (DXsd (mk s))) | Ok (inr e) => Ok (inr (DFacet e)) | Panic x => Panic x | OutOfFuel => OutOfFuel end.
Definition handled (O : oracles) (C : coracles) (name : string) (F : family) : Prop :=
  exists (S : Type) (step : S -> str * str -> fres facet_error S) (Inv : params -> S -> Prop) (s0 : S) (mk : S -> xsd_type),
    Inv [] s0 /\ (forall a s p, Inv a s -> step_ok step C F Inv a s p) /\
    forall ps, datatype_name O C (DnCName xsd_uri (lit name)) ps = finish mk (go step s0 ps).
Lemma named O C name ps : datatype_name O C (DnCName xsd_uri (lit name)) ps = fbind (xsd_compile O C (lit name) ps) (fun t => fok (DXsd t)).
Proof. unfold datatype_name. replace (str_eqb xsd_uri []) with false by reflexivity. rewrite str_eqb_refl. reflexivity. Qed.
Lemma finish_with {S} (mk : S -> xsd_type) O C name g r ps : find_entry (lit name) (facet_table O C) = Some g -> g ps = fbind r (fun s => fok (mk s)) ->
  datatype_name O C (DnCName xsd_uri (lit name)) ps = finish mk r.
Proof. intros E Eg. rewrite named. unfold xsd_compile. rewrite E, Eg. destruct r as [[s|e]|x|]; reflexivity. Qed.
Lemma handled_len O C name mk : find_entry (lit name) (facet_table O C) = Some (len_type mk) -> handled O C name (Lengths false).
Proof.
  intros E. exists length_facet, len_loop, len_inv, LUnbounded, mk. split; [intros n v []|]. split; [intros a s p; apply len_step_ok|]. intros ps.
  apply (finish_with mk O C name _ _ ps E). unfold len_type. rewrite length_facets_go. reflexivity.
Qed.
Lemma handled_str O C name mk : find_entry (lit name) (facet_table O C) = Some (str_type C mk) -> handled O C name (Lengths true).
Proof.
  intros E. exists (length_facet * pattern_facet)%type, (str_loop C), (fun a s => len_inv a (fst s)), (LUnbounded, None), (fun s => mk (fst s) (snd s)). split; [intros n v []|]. split; [intros a s p; apply str_step_ok|]. intros ps.
  apply (finish_with _ O C name _ _ ps E). unfold str_type. rewrite string_facets_go. unfold fbind. destruct (go _ _ ps) as [[[f q]|e]|x|]; reflexivity.
Qed.
Lemma handled_pat O C name mk : find_entry (lit name) (facet_table O C) = Some (pat_type C mk) -> handled O C name Patterns.
Proof.
  intros E. exists pattern_facet, (pat_loop C), (fun _ _ => True), None, mk. split; [exact I|]. split; [intros a s p _; apply pat_step_ok|]. intros ps.
  apply (finish_with mk O C name _ _ ps E). unfold pat_type. rewrite pattern_facets_go. reflexivity.
Qed.
Definition embZ (z : Z) : Qc := Q2Qc (inject_Z z).
Lemma embZ_le a b : (a <=? b)%Z = true <-> (embZ a <= embZ b)%Qc.
Proof. rewrite Z.leb_le. rewrite Zle_Qle. unfold embZ, Qcle, Q2Qc, this. rewrite (Qred_correct (inject_Z a)), (Qred_correct (inject_Z b)). reflexivity. Qed.
Lemma embZ_lt a b : (a <? b)%Z = true <-> (embZ a < embZ b)%Qc.
Proof. rewrite Z.ltb_lt. rewrite Zlt_Qlt. unfold embZ, Qclt, Q2Qc, this. rewrite (Qred_correct (inject_Z a)), (Qred_correct (inject_Z b)). reflexivity. Qed.
Lemma embZ_inj a b : embZ a = embZ b -> a = b.
Proof.
  intros E. assert (H1 : (embZ a <= embZ b)%Qc) by (rewrite E; apply Qcle_refl). assert (H2 : (embZ b <= embZ a)%Qc) by (rewrite E; apply Qcle_refl).
  apply embZ_le in H1, H2. lia.
Qed.
Lemma handled_int O C name pz mk (reads : str -> Z -> Prop) : find_entry (lit name) (facet_table O C) = Some (int_type C pz mk) ->
  (forall v z, pz v = Some z <-> reads v z) -> handled O C name (Numbers (whole reads) false FInvalidInt).
Proof.
  intros E Hp. exists (minmax Z * pattern_facet)%type, (bnd_loop Z.ltb Z.leb (p_int pz) C), (fun a s => bound_inv embZ (whole reads) a (fst s)), (no_bounds, None), (fun s => mk (fst s) (snd s)).
  assert (Hparse : forall v, match p_int pz v with Ok (inl k) => whole reads v (embZ k) | Ok (inr e) => e = FInvalidInt /\ forall k, ~ whole reads v k | _ => False end).
  { intros v. unfold p_int. destruct (pz v) as [z|] eqn:Ez; cbn; [exists z; split; [apply Hp, Ez | reflexivity] | split; [reflexivity|]]. intros k (z & Hz & _). apply Hp in Hz. congruence. }
  assert (Hfun : forall v k k', whole reads v k -> whole reads v k' -> k = k').
  { intros v k k' (z & Hz & ->) (z' & Hz' & ->). apply Hp in Hz, Hz'. congruence. }
  split; [apply bound_inv_init|]. split; [intros a s p HI; exact (bnd_step_ok embZ Z.ltb Z.leb (p_int pz) (whole reads) FInvalidInt embZ_le embZ_lt Hparse Hfun C a s p HI)|]. intros ps.
  apply (finish_with _ O C name _ _ ps E). unfold int_type. rewrite bound_facets_go. unfold fbind. destruct (go _ _ ps) as [[[f q]|e]|x|]; reflexivity.
Qed.
Lemma type_handled O C name F : type_family O C name F -> handled O C name F.
Proof.
  intros H. destruct H as [name H|name H|name reads lo hi H| | | | |name H].
  - cbn in H. destruct H as [<-|[<-|[]]]; (eapply handled_str; reflexivity).
  - cbn in H. destruct H as [<-|[<-|[<-|[<-|[]]]]]; (eapply handled_len; reflexivity).
  - destruct H; (eapply handled_int; [reflexivity|]); intros v z; first [apply parse_signed_lit | apply parse_unsigned_lit].
  - eapply handled_int; [reflexivity|]. exact bigint_lit.
  - eapply handled_int; [reflexivity|]. exact biguint_Z.
  - exists dec_state, (dec_loop O C), (fun a s => bound_inv (fun k => k) (dec_reads O) a (fst (fst (fst s)))), (no_bounds, None, None, None), dec_type.
    split; [apply bound_inv_init|]. split; [exact (dec_step_ok O C)|]. intros ps. eapply finish_with; [reflexivity|]. apply decimal_facets_go.
  - exists (minmax Qc * pattern_facet)%type, (bnd_loop qc_ltb qc_leb (p_f64 C) C), (fun a s => bound_inv (fun k => k) (fun v k => co_f64 C v = Some k) a (fst s)), (no_bounds, None), (fun s => XDouble (snd s)).
    split; [apply bound_inv_init|]. split; [intros a s p HI; exact (bnd_step_ok (fun k => k) qc_ltb qc_leb (p_f64 C) _ FInvalidFloat qc_leb_le qc_ltb_lt (p_f64_ok C) ltac:(congruence) C a s p HI)|].
    intros ps. eapply finish_with; [reflexivity|]. unfold double_type. rewrite bound_facets_go. unfold fbind. destruct (go _ _ ps) as [[[f q]|e]|x|]; reflexivity.
  - cbn in H. destruct H as [<-|[<-|[<-|[<-|[<-|[<-|[<-|[<-|[]]]]]]]]]; (eapply handled_pat; reflexivity).
Qed.

(** ** The theorems *)
Section Final.
Variables (O : oracles) (C : coracles) (name : string) (F : family).
Hypothesis HF : type_family O C name F.
Notation T ps := (datatype_name O C (DnCName xsd_uri (lit name)) ps).
Lemma params_accepted ps : accepted O C name ps <-> forall a p b, ps = a ++ p :: b -> forall o, ~ Fault C F a p o.
Proof.
  destruct (type_handled O C name F HF) as (S & step & Inv & s0 & mk & H1 & H2 & H3). rewrite <- (go_accept step C F Inv s0 H1 H2 ps).
  unfold accepted, compiles, acc. setoid_rewrite H3. unfold finish. split.
  - intros (d & E). destruct (go step s0 ps) as [[s|e]|x|]; try discriminate E. exists s; reflexivity.
  - intros (s & ->). eexists; reflexivity.
Qed.
Lemma params_wrong ps e : T ps = Ok (inr (DFacet e)) <-> exists a p b, ps = a ++ p :: b /\ accepted O C name a /\ Fault C F a p (Wrong e).
Proof.
  destruct (type_handled O C name F HF) as (S & step & Inv & s0 & mk & H1 & H2 & H3).
  assert (G : forall a, accepted O C name a <-> acc step s0 a).
  { intros a. unfold accepted, compiles, acc. setoid_rewrite H3. unfold finish. split; [intros (d & E); destruct (go step s0 a) as [[s|e']|x|]; try discriminate E; eauto | intros (s & ->); eauto]. }
  setoid_rewrite G. rewrite <- (go_wrong step C F Inv s0 H1 H2 ps e). rewrite H3. unfold finish. destruct (go step s0 ps) as [[s|e']|x|]; split; intros E; try discriminate E; injection E as ->; reflexivity.
Qed.
Lemma params_crash ps : (exists x, T ps = Panic x) <-> exists a p b, ps = a ++ p :: b /\ accepted O C name a /\ Fault C F a p Crash.
Proof.
  destruct (type_handled O C name F HF) as (S & step & Inv & s0 & mk & H1 & H2 & H3).
  assert (G : forall a, accepted O C name a <-> acc step s0 a).
  { intros a. unfold accepted, compiles, acc. setoid_rewrite H3. unfold finish. split; [intros (d & E); destruct (go step s0 a) as [[s|e']|x|]; try discriminate E; eauto | intros (s & ->); eauto]. }
  setoid_rewrite G. rewrite <- (go_crash step C F Inv s0 H1 H2 ps). rewrite H3. unfold finish. destruct (go step s0 ps) as [[s|e']|x|]; split; intros (y & E); try discriminate E; exists y; congruence.
Qed.
(** nothing else happens *)
Lemma params_outcome ps : accepted O C name ps \/ (exists e, T ps = Ok (inr (DFacet e))) \/ exists x, T ps = Panic x.
Proof.
  destruct (type_handled O C name F HF) as (S & step & Inv & s0 & mk & H1 & H2 & H3). unfold accepted, compiles. setoid_rewrite H3.
  destruct (go_split step s0 ps) as [(s & E)|(a & p & b & s & -> & E1 & E2 & E3)]; [left; rewrite E; eexists; reflexivity|]. right. rewrite E3.
  pose proof (H2 a s p (acc_inv step C F Inv s0 H1 H2 _ _ E1)) as K. unfold step_ok in K. destruct (step s p) as [[s'|e]|x|]; [exfalso; exact (E2 s' eq_refl) | left; eexists; reflexivity | right; eexists; reflexivity | destruct K].
Qed.
End Final.
(** the names of the types *)
Lemma types_known O C n ps : datatype_name O C (DnCName xsd_uri n) ps = Ok (inr (DUnsupportedDatatype n)) <-> forall name F, type_family O C name F -> n <> lit name.
Proof.
  assert (HN : datatype_name O C (DnCName xsd_uri n) ps = fbind (xsd_compile O C n ps) (fun t => fok (DXsd t))).
  { unfold datatype_name. replace (str_eqb xsd_uri []) with false by reflexivity. rewrite str_eqb_refl. reflexivity. }
  split.
  - intros H name F HF ->. destruct (params_outcome O C name F HF ps) as [(d & E)|[(e & E)|(x & E)]]; unfold compiles in *; rewrite H in E; discriminate E.
  - intros H. rewrite HN. unfold xsd_compile. destruct (find_entry n (facet_table O C)) as [g|] eqn:E; [|reflexivity]. exfalso.
    apply DatatypeMain.find_entry_name in E as (k & Hk & ->). unfold facet_table in Hk. cbn [In] in Hk.
    assert (Hs : forall nm F, type_family O C nm F -> k = nm -> False) by (intros nm F HT ->; exact (H nm F HT eq_refl)).
    repeat match type of Hk with _ \/ _ => destruct Hk as [Hk|Hk] end; try contradiction; injection Hk as <- _;
      first [ eapply Hs; [apply Tf_string|reflexivity]; cbn; tauto | eapply Hs; [apply Tf_token|reflexivity]; cbn; tauto | eapply Hs; [eapply Tf_int; constructor|reflexivity]
            | eapply Hs; [apply Tf_integer|reflexivity] | eapply Hs; [apply Tf_positive|reflexivity] | eapply Hs; [apply Tf_decimal|reflexivity] | eapply Hs; [apply Tf_double|reflexivity]
            | eapply Hs; [apply Tf_pattern|reflexivity]; cbn; tauto ].
Qed.
