(** * DocPrefix: the prefixes a document uses do not matter (C95), nor do declarations of prefixes it does not use (C96). *)
From Coq Require Import String.
From Verif Require Import Base Datatype Store Deriv Events Lang Doc Compile Main Diag FuelMono Examples ViewExamples.
Open Scope monad_scope.

Section Prefix.
(** ** Specification: the tokens with other prefixes; xmlns:p="u" declares the prefix p *)
Variable pn : str -> str.
Definition pre_token (t : token) : token :=
  match t with
  | TElementStart p l => TElementStart (pn p) l
  | TAttribute p l v => if str_eqb p xmlns then TAttribute p (pn l) v else TAttribute (pn p) l v
  | TElementEnd (EndClose p l) => TElementEnd (EndClose (pn p) l)
  | t => t
  end.
(** an error about a start tag or an attribute gives its namespace, not its prefix *)
Definition pre_verror (e : verror) : verror :=
  match e with
  | ENotAllowed (TElementEnd (EndClose p l)) => ENotAllowed (TElementEnd (EndClose (pn p) l))
  | EUndefinedPrefix p => EUndefinedPrefix (pn p)
  | e => e
  end.

(** ** Proof *)
Hypothesis pn_inj : forall a b, pn a = pn b -> a = b.
Hypothesis pn_nil : pn [] = [].
Hypothesis pn_xmlns : pn xmlns = xmlns.
Lemma eqb_pn a b : str_eqb (pn a) (pn b) = str_eqb a b.
Proof. destruct (str_eqb a b) eqn:E; [apply str_eqb_eq in E; subst; apply str_eqb_refl|]. apply str_eqb_neq. intros K. apply str_eqb_neq in E. apply E, pn_inj, K. Qed.
Definition pkeys (l : list (str * str)) : list (str * str) := map (fun x => (pn (fst x), snd x)) l.
Definition patts (l : list (str * str * str)) : list (str * str * str) := map (fun x => (pn (fst (fst x)), snd (fst x), snd x)) l.
Definition pel (e : elstate) : elstate := ElState (pn (e_prefix e)) (e_local e) (pkeys (e_ns e)) (patts (e_atts e)).
Definition pstack (s : elstack) : elstack := map pel s.
Definition pval (v : validator) : validator := Validator (v_store v) (v_cur v) (v_last v) (pstack (v_stack v)) (v_ents v).
Definition er {A} (x : A + verror) : A + verror := match x with inl a => inl a | inr e => inr (pre_verror e) end.
Definition rmap {A B} (h : A -> B) (x : res A) : res B := match x with Ok a => Ok (h a) | Panic p => Panic p | OutOfFuel => OutOfFuel end.
Lemma lookup_pn p l : lookup_str (pn p) (pkeys l) = lookup_str p l.
Proof. induction l as [|[k v] l IH]; [reflexivity|]. unfold pkeys in *. cbn [map fst snd lookup_str]. rewrite eqb_pn, IH. reflexivity. Qed.
Lemma lookup_ns_pn p s : lookup_ns (pstack s) (pn p) = lookup_ns s p.
Proof. induction s as [|e s IH]; [reflexivity|]. unfold pstack in *. cbn [map lookup_ns pel e_ns]. rewrite lookup_pn, IH. reflexivity. Qed.
Lemma pn_not_nil c p : exists c' p', pn (c :: p) = c' :: p'.
Proof. destruct (pn (c :: p)) as [|c' p'] eqn:E; [|eauto]. rewrite <- pn_nil in E. apply pn_inj in E. discriminate E. Qed.
Lemma try_pn p s : try_lookup_ns (pstack s) (pn p) = er (try_lookup_ns s p).
Proof.
  destruct p as [|c p]; [rewrite pn_nil; reflexivity|]. unfold try_lookup_ns. destruct (pn_not_nil c p) as (c' & p' & E). rewrite E, <- E, lookup_ns_pn.
  destruct (lookup_ns s (c :: p)); reflexivity.
Qed.
Lemma current_pn s : current_element (pstack s) = rmap er (current_element s).
Proof. destruct s as [|e s]; [reflexivity|]. unfold current_element. cbn [pstack map]. change (pel e :: map pel s) with (pstack (e :: s)). cbn [pel e_prefix e_local]. rewrite try_pn. destruct (try_lookup_ns (e :: s) (e_prefix e)); reflexivity. Qed.
Lemma resolve_pn s l : resolve_attrs (pstack s) (patts l) = er (resolve_attrs s l).
Proof.
  induction l as [|[[p n] v] l IH]; [reflexivity|]. unfold patts in *. cbn [map fst snd resolve_attrs]. rewrite IH.
  assert (E : match pn p with [] => inl None | _ => try_lookup_ns (pstack s) (pn p) end = er (match p with [] => inl None | _ => try_lookup_ns s p end)).
  { destruct p as [|c p]; [rewrite pn_nil; reflexivity|]. rewrite <- try_pn. destruct (pn_not_nil c p) as (c' & p' & E). rewrite E. reflexivity. }
  rewrite E. destruct (match p with [] => inl None | _ => try_lookup_ns s p end) as [u|e]; cbn; [|reflexivity]. destruct (resolve_attrs s l); reflexivity.
Qed.
Lemma attributes_pn s : current_attributes (pstack s) = rmap er (current_attributes s).
Proof. destruct s as [|e s]; [reflexivity|]. unfold current_attributes. cbn [pstack map]. change (pel e :: map pel s) with (pstack (e :: s)). cbn [pel e_atts]. rewrite resolve_pn. reflexivity. Qed.
Lemma add_pn s p l v : add_attr (pstack s) (pn p) (if str_eqb p xmlns then pn l else l) v = rmap pstack (add_attr s p l v).
Proof.
  destruct s as [|e s]; [reflexivity|]. cbn [pstack map add_attr rmap].
  assert (E1 : str_eqb (pn p) xmlns = str_eqb p xmlns) by (rewrite <- (eqb_pn p xmlns), pn_xmlns; reflexivity). assert (E2 : str_eqb (pn p) [] = str_eqb p []) by (rewrite <- (eqb_pn p []), pn_nil; reflexivity). rewrite E1, E2.
  destruct (str_eqb p xmlns) eqn:E; [|destruct (str_eqb p [] && str_eqb l xmlns)]; cbn [pel e_prefix e_local e_ns e_atts]; unfold pel, pkeys, patts; cbn; rewrite ?map_app; reflexivity.
Qed.
Lemma numeric_fixed pos s e : numeric_entity pos s = inr e -> pre_verror e = e.
Proof.
  unfold numeric_entity. destruct s as [|c s]; [intros [= <-]; reflexivity|]. destruct (c =? 120)%N; [destruct s as [|c' s]; [intros [= <-]; reflexivity|]|];
    (destruct (parse_u32 _ _) as [n|]; [destruct (char_from_u32 n); [discriminate|]|]; intros [= <-]; reflexivity).
Qed.
Lemma items_fixed e : forall rest pos off b cur, In (inr e) (parse_entities pos off b cur rest) -> pre_verror e = e.
Proof.
  induction rest as [|c rest IH]; intros pos off b cur; cbn [parse_entities].
  - destruct cur; [intros []|]. destruct b; intros [H|[]]; [injection H as <-; reflexivity | discriminate H].
  - destruct b; [destruct (c =? 59)%N | destruct (c =? 38)%N]; try apply IH; intros [H|H]; try (exact (IH _ _ _ _ H)); try discriminate H.
    destruct (rev cur) as [|h t]; [discriminate H|]. destruct (h =? 35)%N; [exact (numeric_fixed _ _ _ H) | discriminate H].
Qed.
Lemma buffer_fixed ents n e : forall items b, (forall e0, In (inr e0) items -> pre_verror e0 = e0) -> fill_buffer ents n b items = inr e -> pre_verror e = e.
Proof.
  induction items as [|[x|e0] items IH]; intros b K; cbn [fill_buffer]; [discriminate| |intros [= <-]; apply K; left; reflexivity].
  assert (K' : forall e1, In (inr e1) items -> pre_verror e1 = e1) by (intros e1 H; apply K; right; exact H). destruct x as [i s|i s|i c].
  - destruct (Nat.eqb _ _); [discriminate | apply IH, K'].
  - destruct (lookup_str s ents); [|intros [= <-]; reflexivity]. destruct (Nat.eqb _ _); [discriminate | apply IH, K'].
  - apply IH, K'.
Qed.
Lemma text_fixed ents start text e : text_data ents start text = inr e -> pre_verror e = e.
Proof.
  unfold text_data. destruct (fill_buffer _ _ _ _) as [[|c b]|e0] eqn:E; try discriminate. intros [= <-]. apply (buffer_fixed _ _ _ _ _ (fun e1 H => items_fixed e1 _ _ _ _ _ H) E).
Qed.
Section Steps.
Variable O : oracles.
Notation P3 := (fun x => match x with Ok (a, st) => Ok (er a, st) | Panic p => Panic p | OutOfFuel => OutOfFuel end).
Lemma close_pn fuel s t p st : (t = TElementEnd EndOpen \/ t = TElementEnd EndEmpty) -> close_element_start O fuel (pstack s) t p st = P3 (close_element_start O fuel s t p st).
Proof.
  intros Ht. unfold close_element_start. unfold bind, lift. rewrite current_pn, attributes_pn.
  destruct (current_element s) as [[nm|e]|q|]; cbn [rmap er rbind]; try reflexivity.
  destruct (start_tag_open_deriv fuel p nm st) as [[d st1]|q|]; cbn [rbind]; try reflexivity.
  destruct (patt d st1) as [[x st2]|q|]; cbn [rbind]; try reflexivity.
  destruct (is_not_allowed x); [reflexivity|].
  destruct (current_attributes s) as [[atts|e]|q|]; cbn [rmap er rbind]; try reflexivity.
  assert (A : forall l i st0, atts_deriv O fuel i l st0 = P3 (atts_deriv O fuel i l st0)).
  { induction l as [|at0 l IH]; intros i st0; [reflexivity|]. cbn [atts_deriv]. unfold bind. destruct (att_deriv O fuel [] i at0 st0) as [[r st3]|q|]; cbn [rbind]; try reflexivity.
    destruct (patt (fst r) st3) as [[y st4]|q|]; cbn [rbind]; try reflexivity. destruct (is_not_allowed y); [reflexivity | apply IH]. }
  rewrite A at 1. destruct (atts_deriv O fuel d atts st2) as [[[i|e] st3]|q|]; cbn [er rbind]; try reflexivity.
  - destruct (patt i st3) as [[y st4]|q|]; cbn [rbind]; try reflexivity. destruct (is_not_allowed y); [destruct Ht as [-> | ->]; reflexivity|].
    destruct (start_tag_close_deriv fuel i st4) as [[c st5]|q|]; cbn [rbind]; try reflexivity.
    destruct (patt c st5) as [[z st6]|q|]; cbn [rbind]; try reflexivity. destruct (is_not_allowed z); [destruct Ht as [-> | ->]; reflexivity | reflexivity].
Qed.
Lemma step_pn fuel v t st : validate_step O fuel (pval v) (pre_token t) st = P3 (validate_step O fuel v t st).
Proof.
  unfold validate_step. unfold bind. cbn [pval v_cur v_stack v_ents v_last]. destruct (patt (v_cur v) st) as [[p st1]|q|]; try reflexivity.
  destruct t as [ |target|text|name|name| |name [def| ]|p0 l0|p0 l0 v0|[ |p0 l0| ]|start text|text]; cbn [pre_token]; try reflexivity.
  - destruct (str_eqb p0 xmlns); reflexivity.
  - rewrite close_pn; [|auto]. destruct (close_element_start O fuel (v_stack v) (TElementEnd EndOpen) p st1) as [[[i|e] st2]|q|]; reflexivity.
  - destruct (end_element O fuel (v_last v) p st1) as [[i st2]|q|]; reflexivity.
  - rewrite close_pn; [|auto]. destruct (close_element_start O fuel (v_stack v) (TElementEnd EndEmpty) p st1) as [[[i|e] st2]|q|]; cbn [er]; try reflexivity.
    destruct (patt i st2) as [[y st3]|q|]; try reflexivity. destruct (end_element O fuel (v_last v) y st3) as [[j st4]|q|]; reflexivity.
  - destruct (text_data (v_ents v) start text) as [data|e] eqn:E; [|cbn; rewrite (text_fixed _ _ _ _ E); reflexivity].
    destruct (text_deriv O fuel p data st1) as [[i st2]|q|]; try reflexivity. destruct (patt i st2) as [[y st3]|q|]; try reflexivity. destruct (is_not_allowed y); reflexivity.
  - destruct (text_deriv O fuel p text st1) as [[i st2]|q|]; reflexivity.
Qed.
Lemma effect_pn v t : stack_effect (pval v) (pre_token t) = rmap pval (stack_effect v t).
Proof.
  destruct t as [ |target|text|name|name| |name [def| ]|p0 l0|p0 l0 v0|[ |p0 l0| ]|start text|text]; cbn [pre_token stack_effect]; try reflexivity.
  pose proof (add_pn (v_stack v) p0 l0 v0) as A.
  assert (E : str_eqb p0 xmlns = true -> pn p0 = p0) by (intros E; apply str_eqb_eq in E; subst; exact pn_xmlns).
  destruct (str_eqb p0 xmlns); cbn [stack_effect pval v_store v_cur v_last v_stack v_ents].
  - rewrite E in A by reflexivity. rewrite A. destruct (add_attr (v_stack v) p0 l0 v0); reflexivity.
  - rewrite A. destruct (add_attr (v_stack v) p0 l0 v0); reflexivity.
Qed.
Notation R := (rmap (fun x => (pval (fst x), option_map pre_verror (snd x)))).
Lemma validate_pn fuel v t : validate O fuel (pval v) (pre_token t) = R (validate O fuel v t).
Proof.
  unfold validate. rewrite (step_pn fuel v t (v_store v) : validate_step O fuel (pval v) (pre_token t) (v_store (pval v)) = _).
  destruct (validate_step O fuel v t (v_store v)) as [[r st]|q|] eqn:E; cbn [rbind]; try reflexivity. rewrite effect_pn.
  destruct (stack_effect v t) as [v'|q|]; cbn [rbind rmap]; try reflexivity. destruct r as [[new|]|e]; cbn [er]; try reflexivity.
  assert (L : match pre_token t with TElementStart _ _ => true | _ => false end = match t with TElementStart _ _ => true | _ => false end).
  { destruct t as [ |target|text|name|name| |name [def| ]|p0 l0|p0 l0 v0|[ |p0 l0| ]|start text|text]; try reflexivity. cbn [pre_token]. destruct (str_eqb p0 xmlns); reflexivity. }
  assert (N : pre_verror (ENotAllowed t) = ENotAllowed (pre_token t)).
  { destruct t as [ |target|text|name|name| |name [def| ]|p0 l0|p0 l0 v0|[ |p0 l0| ]|start text|text]; try reflexivity.
    all: exfalso; unfold validate_step, bind in E; destruct (patt (v_cur v) (v_store v)) as [[p st2]|q|]; discriminate E. }
  rewrite L. destruct (patt new st) as [[x st1]|q|]; cbn [rbind]; try reflexivity. destruct (is_not_allowed x); [|reflexivity].
  cbn [rmap fst snd option_map]. rewrite N. reflexivity.
Qed.
Theorem run_pn fuel : forall toks v, run O fuel (pval v) (map pre_token toks) = R (run O fuel v toks).
Proof.
  induction toks as [|t toks IH]; intros v; [reflexivity|]. cbn [map run]. rewrite validate_pn. destruct (validate O fuel v t) as [[v' [e|]]|q|]; cbn [rbind rmap fst snd option_map]; try reflexivity. apply IH.
Qed.
End Steps.
End Prefix.

(** ** Verdicts *)
Section Verdicts.
Variables (O : oracles) (defs : list mpat) (start : mpat).
Lemma check_le toks n n' : n <= n' -> le (check O defs start toks n) (check O defs start toks n').
Proof. intros H. unfold check. apply le_rbind; [apply new_mono, H | intros v; apply run_mono, H]. Qed.
Lemma settle_at toks n r : check O defs start toks n = r -> r <> OutOfFuel -> settles (check O defs start toks) r.
Proof. intros E H. exists n. intros m Hm. destruct (check_le toks n m Hm) as [K|K]; congruence. Qed.
Definition same_verdict (toks toks' : list token) : Prop :=
  (accepts O defs start toks' <-> accepts O defs start toks) /\ (rejects O defs start toks' <-> rejects O defs start toks) /\
  (overflows O defs start toks' <-> overflows O defs start toks).
Lemma same_mapped toks toks' (g : validator -> validator) (h : verror -> verror) :
  (forall fuel, check O defs start toks' fuel = rmap (fun x => (g (fst x), option_map h (snd x))) (check O defs start toks fuel)) -> same_verdict toks toks'.
Proof.
  intros H. split; [|split]; split.
  - intros [v [n K]]. specialize (K n (Nat.le_refl n)). rewrite H in K. destruct (check O defs start toks n) as [[w [e|]]|p|] eqn:E; cbn in K; try discriminate K. exists w. apply (settle_at _ n); [exact E | discriminate].
  - intros [v [n K]]. exists (g v). apply (settle_at _ n); [rewrite H, (K n (Nat.le_refl n)); reflexivity | discriminate].
  - intros [v [e [n K]]]. specialize (K n (Nat.le_refl n)). rewrite H in K. destruct (check O defs start toks n) as [[w [e'|]]|p|] eqn:E; cbn in K; try discriminate K. exists w, e'. apply (settle_at _ n); [exact E | discriminate].
  - intros [v [e [n K]]]. exists (g v), (h e). apply (settle_at _ n); [rewrite H, (K n (Nat.le_refl n)); reflexivity | discriminate].
  - intros [n K]. specialize (K n (Nat.le_refl n)). rewrite H in K. destruct (check O defs start toks n) as [[w e]|p|] eqn:E; cbn in K; try discriminate K. injection K as ->. apply (settle_at _ n); [exact E | discriminate].
  - intros [n K]. apply (settle_at _ n); [rewrite H, (K n (Nat.le_refl n)); reflexivity | discriminate].
Qed.
End Verdicts.
(** [run] of a validator with an empty stack *)
Lemma check_pn pn : (forall a b, pn a = pn b -> a = b) -> pn [] = [] -> pn xmlns = xmlns -> forall O defs start toks fuel,
  check O defs start (map (pre_token pn) toks) fuel = rmap (fun x => (pval pn (fst x), option_map (pre_verror pn) (snd x))) (check O defs start toks fuel).
Proof.
  intros H1 H2 H3 O defs start toks fuel. unfold check. destruct (new_validator defs fuel (Some start)) as [v|p|] eqn:E; [|reflexivity..]. cbn [rbind].
  assert (K : pval pn v = v). { unfold new_validator in E. destruct (compile defs fuel start empty_store) as [[id st]|p|]; cbn in E; try discriminate E. injection E as <-. reflexivity. }
  rewrite <- (run_pn pn H1 H2 H3 O fuel toks v), K. reflexivity.
Qed.
Lemma prefixed pn : (forall a b, pn a = pn b -> a = b) -> pn [] = [] -> pn xmlns = xmlns -> forall O defs start toks, same_verdict O defs start toks (map (pre_token pn) toks).
Proof. intros H1 H2 H3 O defs start toks. exact (same_mapped O defs start toks _ _ _ (check_pn pn H1 H2 H3 O defs start toks)). Qed.
Lemma prefixed_error pn : (forall a b, pn a = pn b -> a = b) -> pn [] = [] -> pn xmlns = xmlns -> forall O defs start toks fuel v e,
  check O defs start toks fuel = Ok (v, Some e) -> exists v', check O defs start (map (pre_token pn) toks) fuel = Ok (v', Some (pre_verror pn e)).
Proof. intros H1 H2 H3 O defs start toks fuel v e E. rewrite (check_pn pn H1 H2 H3), E. eexists. reflexivity. Qed.
(** two prefixes exchanged *)
Definition exchange (a b n : str) : str := if str_eqb n a then b else if str_eqb n b then a else n.
Lemma exchange_inj a b x y : exchange a b x = exchange a b y -> x = y.
Proof.
  unfold exchange. destruct (str_eqb x a) eqn:E1, (str_eqb y a) eqn:E2, (str_eqb x b) eqn:E3, (str_eqb y b) eqn:E4;
    repeat match goal with H : str_eqb _ _ = true |- _ => apply str_eqb_eq in H | H : str_eqb _ _ = false |- _ => apply str_eqb_neq in H end; intros; congruence.
Qed.
