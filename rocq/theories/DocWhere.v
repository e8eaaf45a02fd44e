(** * DocWhere: where the text of a document stands in its file does not matter (C97). *)
From Coq Require Import String.
From Verif Require Import Base Datatype Store Deriv Events Lang Doc Compile Main Diag FuelMono Examples ViewExamples DocPrefix.
Open Scope monad_scope.

(** ** Specification: a token without the offset of its text; an error without offsets *)
Definition no_offset (t : token) : token := match t with TText _ s => TText 0 s | t => t end.
Definition no_range (e : verror) : verror :=
  match e with
  | ENotAllowed t => ENotAllowed (no_offset t)
  | EUndefinedEntity n _ _ => EUndefinedEntity n 0 0
  | EInvalidEntity _ _ => EInvalidEntity 0 0
  | e => e
  end.

(** ** Proof *)
Definition no_pos (x : txt + verror) : txt + verror :=
  match x with inl (TxText _ s) => inl (TxText 0 s) | inl (TxEntity _ s) => inl (TxEntity 0 s) | inl (TxChar _ c) => inl (TxChar 0 c) | inr e => inr (no_range e) end.
Definition nr {A} (x : A + verror) : A + verror := match x with inl a => inl a | inr e => inr (no_range e) end.
Lemma items_where : forall rest pos pos' off b cur, map no_pos (parse_entities pos off b cur rest) = map no_pos (parse_entities pos' off b cur rest).
Proof.
  induction rest as [|c rest IH]; intros pos pos' off b cur; cbn [parse_entities].
  - destruct cur; [reflexivity|]. destruct b; reflexivity.
  - destruct b; [destruct (c =? 59)%N | destruct (c =? 38)%N]; try apply IH; cbn [map]; f_equal; try apply IH; try reflexivity.
    destruct (rev cur) as [|h t]; [reflexivity|]. destruct (h =? 35)%N; reflexivity.
Qed.
Lemma buffer_where ents n : forall l b, nr (fill_buffer ents n b l) = nr (fill_buffer ents n b (map no_pos l)).
Proof.
  induction l as [|[[i s|i s|i c]|e] l IH]; intros b; cbn [map no_pos fill_buffer]; try reflexivity.
  - destruct (Nat.eqb _ _); [reflexivity | apply IH].
  - destruct (lookup_str s ents); [|reflexivity]. destruct (Nat.eqb _ _); [reflexivity | apply IH].
  - apply IH.
  - destruct e as [|[]| | |]; reflexivity.
Qed.
Lemma text_where ents p p' s : nr (text_data ents p s) = nr (text_data ents p' s).
Proof.
  unfold text_data. pose proof (buffer_where ents (utf8_len s) (parse_entities p 0 false [] s) []) as E. rewrite (items_where s p p'), <- buffer_where in E.
  destruct (fill_buffer _ _ _ _) as [[|c b]|e], (fill_buffer _ _ _ _) as [[|c' b']|e']; cbn in *; congruence.
Qed.
Section Steps.
Variable O : oracles.
Notation P3 := (fun x => match x with Ok (a, st) => Ok (nr a, st) | Panic p => Panic p | OutOfFuel => OutOfFuel end).
Lemma step_where fuel v t st : P3 (validate_step O fuel v (no_offset t) st) = P3 (validate_step O fuel v t st).
Proof.
  destruct t as [ |target|text|name|name| |name [def| ]|p0 l0|p0 l0 v0|[ |p0 l0| ]|start text|text]; try reflexivity.
  unfold validate_step, bind. cbn [no_offset]. destruct (patt (v_cur v) st) as [[p st1]|q|]; try reflexivity. cbn [rbind].
  pose proof (text_where (v_ents v) 0 start text) as E. destruct (text_data (v_ents v) 0 text) as [d|e], (text_data (v_ents v) start text) as [d'|e']; cbn [nr] in E; try discriminate E.
  - injection E as ->. destruct (text_deriv O fuel p d' st1) as [[i st2]|q|]; try reflexivity. cbn [rbind]. destruct (patt i st2) as [[y st3]|q|]; try reflexivity. cbn [rbind].
    destruct (is_not_allowed y); reflexivity.
  - injection E as E. cbn. rewrite E. reflexivity.
Qed.
Lemma effect_where v t : stack_effect v (no_offset t) = stack_effect v t.
Proof. destruct t as [ |target|text|name|name| |name [def| ]|p0 l0|p0 l0 v0|[ |p0 l0| ]|start text|text]; reflexivity. Qed.
Notation R := (rmap (fun x : validator * option verror => (fst x, option_map no_range (snd x)))).
Lemma validate_where fuel v t : R (validate O fuel v (no_offset t)) = R (validate O fuel v t).
Proof.
  unfold validate. pose proof (step_where fuel v t (v_store v)) as E. rewrite effect_where.
  destruct (validate_step O fuel v (no_offset t) (v_store v)) as [[r st]|q|], (validate_step O fuel v t (v_store v)) as [[r' st']|q'|]; try discriminate E; try (injection E as ->; reflexivity); try reflexivity.
  injection E as E ->. cbn [rbind]. destruct (stack_effect v t) as [v'|q|]; cbn [rbind]; try reflexivity.
  destruct r as [r|e], r' as [r'|e']; try discriminate E; cbn in E.
  - injection E as ->. destruct r' as [new|]; [|reflexivity].
    destruct (patt new st') as [[x st1]|q|]; cbn [rbind]; try reflexivity.
    destruct (is_not_allowed x); destruct t; reflexivity.
  - injection E as E. cbn. rewrite E. reflexivity.
Qed.
Lemma run_where fuel : forall toks v, R (run O fuel v (map no_offset toks)) = R (run O fuel v toks).
Proof.
  induction toks as [|t toks IH]; intros v; [reflexivity|]. cbn [map run]. pose proof (validate_where fuel v t) as E.
  destruct (validate O fuel v (no_offset t)) as [[w [e|]]|q|], (validate O fuel v t) as [[w' [e'|]]|q'|]; try discriminate E; cbn in E; try (injection E as ->; reflexivity); try reflexivity.
  - injection E as -> E. cbn. rewrite E. reflexivity.
  - injection E as ->. cbn [rbind]. apply IH.
Qed.
Lemma check_where defs start toks toks' fuel : map no_offset toks' = map no_offset toks -> R (check O defs start toks' fuel) = R (check O defs start toks fuel).
Proof.
  intros H. unfold check. destruct (new_validator defs fuel (Some start)) as [v|x|]; [|reflexivity..]. cbn [rbind]. rewrite <- (run_where fuel toks v), <- (run_where fuel toks' v), H. reflexivity.
Qed.
End Steps.
Lemma where_error O defs start toks toks' fuel v e : map no_offset toks' = map no_offset toks -> check O defs start toks fuel = Ok (v, Some e) ->
  exists e', check O defs start toks' fuel = Ok (v, Some e') /\ no_range e' = no_range e.
Proof. intros H E. pose proof (check_where O defs start toks toks' fuel H) as K. rewrite E in K. destruct (check O defs start toks' fuel) as [[w [e'|]]|x|]; try discriminate K. cbn in K. injection K as -> K. eauto. Qed.
Lemma where_half O defs start toks toks' : map no_offset toks' = map no_offset toks ->
  (accepts O defs start toks -> accepts O defs start toks') /\ (rejects O defs start toks -> rejects O defs start toks') /\ (overflows O defs start toks -> overflows O defs start toks').
Proof.
  intros H. split; [|split].
  - intros [v [n K]]. exists v. apply (settle_at O defs start _ n); [|discriminate]. pose proof (check_where O defs start toks toks' n H) as E. rewrite (K n (Nat.le_refl n)) in E.
    destruct (check O defs start toks' n) as [[w [e'|]]|x|]; try discriminate E. cbn in E. injection E as ->. reflexivity.
  - intros [v [e [n K]]]. destruct (where_error O defs start toks toks' n v e H (K n (Nat.le_refl n))) as (e' & E & _). exists v, e'. apply (settle_at O defs start _ n); [exact E | discriminate].
  - intros [n K]. apply (settle_at O defs start _ n); [|discriminate]. pose proof (check_where O defs start toks toks' n H) as E. rewrite (K n (Nat.le_refl n)) in E.
    destruct (check O defs start toks' n) as [[w e']|x|]; try discriminate E. cbn in E. injection E as ->. reflexivity.
Qed.
Lemma where_verdict O defs start toks toks' : map no_offset toks' = map no_offset toks -> same_verdict O defs start toks toks'.
Proof.
  intros H. destruct (where_half O defs start toks toks' H) as (A & B & C). destruct (where_half O defs start toks' toks (eq_sym H)) as (A' & B' & C').
  split; [|split]; split; assumption.
Qed.
(** every text n bytes later, as when a prolog of n bytes is put before the document *)
Definition later (n : nat) (t : token) : token := match t with TText k s => TText (n + k) s | t => t end.
Lemma later_same n toks : map no_offset (map (later n) toks) = map no_offset toks.
Proof. rewrite map_map. apply map_ext. intros t. destruct t; reflexivity. Qed.
