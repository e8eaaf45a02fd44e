(** * ToolProof: the exit code of the tool, and when diagnostics can be made. *)
From Verif Require Import Base Datatype Store Deriv Events Lang LangFacts Wp Doc Accept Facets Syntax Compile Final Schema Scope SchemaCompile SchemaMain SchemaTerm Main Steps Reach Verdicts Infoset SourceSpec SourceScope SchemaSpec SchemaDoc Diag DiagProof FuelMono Tool.

(** ** Specification *)
(** a document that can be read, is XML throughout, and is accepted by a fresh validator *)
Definition passes (O : oracles) (defs : list mpat) (start : mpat) (o : option document) : Prop :=
  exists d, o = Some d /\ d_error d = None /\ accepts O defs start (d_toks d).
(** a document with an error: reported by the tokenizer after tokens that are all accepted, or by the validator *)
Definition fails (O : oracles) (defs : list mpat) (start : mpat) (o : option document) : Prop :=
  exists d, o = Some d /\ ((d_error d <> None /\ accepts O defs start (d_toks d)) \/ rejects O defs start (d_toks d)).
(** the schema compiles *)
Definition compiles O C fs name r st : Prop := settles (fun n => compile_grammar O C fs n name) (fok (r, st)).
(** the positions the tokenizer gives lie in the text *)
Definition positioned (d : document) : Prop :=
  (forall k, fst (d_spans d k) <= snd (d_spans d k) <= utf8_len (d_text d)) /\
  Forall (fun t => match t with TText s x => s + utf8_len x <= utf8_len (d_text d) | _ => True end) (d_toks d).

Section P.
Variable O : oracles.
Variable C : coracles.
Variable order : list pat -> list pat.

Lemma le_ok {A} (x y : res A) a : le x y -> x = Ok a -> y = Ok a.
Proof. intros [->| ->]; [discriminate | auto]. Qed.
Lemma bind_inv {A B} (x : res A) (f : A -> res B) b : rbind x f = Ok b -> exists a, x = Ok a /\ f a = Ok b.
Proof. destruct x as [a| |]; [|discriminate..]. intros H. exists a. split; [reflexivity | exact H]. Qed.
Lemma bind_ok {A B} (x : res A) (f : A -> res B) a b : x = Ok a -> f a = Ok b -> rbind x f = Ok b.
Proof. intros ->. exact (fun H => H). Qed.

Lemma doc_true n d toks : forall v k, doc_loop O order n v d k toks = Ok true <-> d_error d = None /\ exists v', Events.run O n v toks = Ok (v', None).
Proof.
  induction toks as [|t toks IH]; intros v k; cbn [doc_loop validate_next rbind Events.run].
  - destruct (d_error d) as [row|]; [|split; [intros _; split; eauto | reflexivity]]. split; [|intros [H _]; discriminate H].
    intros H. apply bind_inv in H as (a & _ & H). discriminate H.
  - destruct (validate O n v t) as [[v1 [e|]]|p|]; cbn [rbind].
    + split; [intros H; apply bind_inv in H as (a & _ & H); discriminate H | intros [_ [v' H]]; discriminate H].
    + apply IH.
    + split; [discriminate | intros [_ [v' H]]; discriminate H].
    + split; [discriminate | intros [_ [v' H]]; discriminate H].
Qed.
Lemma doc_false n d toks : forall v k, doc_loop O order n v d k toks = Ok false ->
  (d_error d <> None /\ exists v', Events.run O n v toks = Ok (v', None)) \/ exists v' e, Events.run O n v toks = Ok (v', Some e).
Proof.
  induction toks as [|t toks IH]; intros v k; cbn [doc_loop validate_next rbind Events.run].
  - destruct (d_error d) as [row|]; [|discriminate]. intros _. left. split; [discriminate | eauto].
  - destruct (validate O n v t) as [[v1 [e|]]|p|]; cbn [rbind]; try discriminate.
    + intros _. right. eauto.
    + apply IH.
Qed.
Lemma check_up n defs start toks v e : new_validator defs n (Some start) = Ok v -> forall v', Events.run O n v toks = Ok (v', e) ->
  settles (check O defs start toks) (Ok (v', e)).
Proof.
  intros H v' H'. exists n. intros m L. unfold check. rewrite (le_ok _ _ _ (new_mono defs n m _ L) H). cbn [rbind]. exact (le_ok _ _ _ (run_mono O n m L toks v) H').
Qed.
Lemma docs_zero n defs start docs : docs_loop O order n defs start docs = Ok 0 -> Forall (passes O defs start) docs.
Proof.
  induction docs as [|[d|] docs IH]; intros H; [constructor| |discriminate H]. cbn [docs_loop] in H. apply bind_inv in H as (v & Hv & H). apply bind_inv in H as (b & Hb & H).
  destruct b; [|discriminate H]. constructor; [|apply IH, H]. apply doc_true in Hb as (He & v' & Hr). exists d. split; [reflexivity|]. split; [exact He|]. exists v'. exact (check_up n defs start _ v _ Hv v' Hr).
Qed.
Lemma docs_pass defs start docs : Forall (passes O defs start) docs -> exists n0, forall n, n0 <= n -> forall rest, docs_loop O order n defs start (docs ++ rest) = docs_loop O order n defs start rest.
Proof.
  induction 1 as [|o docs H _ [n1 IH]]; [exists 0; reflexivity|]. destruct H as (d & -> & Hd & v & n0 & H). exists (n0 + n1). intros n L rest.
  specialize (H n ltac:(lia)). unfold check in H. apply bind_inv in H as (w & Hw & Hr). cbn [app docs_loop]. rewrite Hw. cbn [rbind].
  rewrite (proj2 (doc_true n d (d_toks d) w 0) (conj Hd (ex_intro _ v Hr))). cbn [rbind]. apply IH. lia.
Qed.
Lemma docs_two n defs start docs : docs_loop O order n defs start docs = Ok 2 -> exists pre o post, docs = pre ++ o :: post /\ Forall (passes O defs start) pre /\ fails O defs start o.
Proof.
  induction docs as [|[d|] docs IH]; intros H; [discriminate H| |discriminate H]. cbn [docs_loop] in H. apply bind_inv in H as (v & Hv & H). apply bind_inv in H as (b & Hb & H).
  destruct b.
  - destruct (IH H) as (pre & o & post & -> & Hp & Hf). exists (Some d :: pre), o, post. split; [reflexivity|]. split; [|exact Hf]. constructor; [|exact Hp].
    apply doc_true in Hb as (He & v' & Hr). exists d. split; [reflexivity|]. split; [exact He|]. exists v'. exact (check_up n defs start _ v _ Hv v' Hr).
  - exists [], (Some d), docs. split; [reflexivity|]. split; [constructor|]. exists d. split; [reflexivity|]. destruct (doc_false _ _ _ _ _ Hb) as [[He [v' Hr]]|(v' & e & Hr)].
    + left. split; [exact He|]. exists v'. exact (check_up n defs start _ v _ Hv v' Hr).
    + right. exists v', e. exact (check_up n defs start _ v _ Hv v' Hr).
Qed.
Lemma docs_codes n defs start docs k : docs_loop O order n defs start docs = Ok k -> k = 0 \/ k = 2.
Proof.
  induction docs as [|[d|] docs IH]; intros H; [injection H as <-; auto| |discriminate H]. cbn [docs_loop] in H. apply bind_inv in H as (v & _ & H). apply bind_inv in H as (b & _ & H).
  destruct b; [apply IH, H | injection H as <-; auto].
Qed.
Lemma compile_up fs name n x : compile_grammar O C fs n name = Ok x -> settles (fun n => compile_grammar O C fs n name) (Ok x).
Proof. intros H. exists n. intros m L. rewrite (compile_mono O C fs n m name L); [exact H|]. rewrite H. intro K; discriminate K. Qed.

Theorem exit_zero fs name docs : settles (tool O C order fs name docs) (Ok 0) <->
  exists r st, compiles O C fs name r st /\ Forall (passes O (cell_defs st) (start_of r st)) docs.
Proof.
  split.
  - intros [n H]. specialize (H n (Nat.le_refl n)). unfold tool in H. destruct (compile_grammar O C fs n name) as [[[r st]|e]|p|] eqn:Ec; try discriminate H.
    + exists r, st. split; [exact (compile_up _ _ _ _ Ec)|]. exact (docs_zero _ _ _ _ H).
    + apply bind_inv in H as (a & _ & H). discriminate H.
  - intros (r & st & [n H] & HF). destruct (docs_pass _ _ _ HF) as [n' H']. exists (n + n'). intros m L. unfold tool. rewrite (H m) by lia. cbn. rewrite <- (app_nil_r docs), H' by lia. reflexivity.
Qed.
Theorem exit_one fs name docs : settles (tool O C order fs name docs) (Ok 1) <->
  exists e, settles (fun n => compile_grammar O C fs n name) (ferr e) /\ schema_diagnostic e = Ok tt.
Proof.
  split.
  - intros [n H]. specialize (H n (Nat.le_refl n)). unfold tool in H. destruct (compile_grammar O C fs n name) as [[[r st]|e]|p|] eqn:Ec; try discriminate H.
    + apply docs_codes in H. lia.
    + exists e. split; [exact (compile_up _ _ _ _ Ec)|]. apply bind_inv in H as ([] & H & _). exact H.
  - intros (e & [n H] & He). exists n. intros m L. unfold tool. rewrite (H m L). cbn. rewrite He. reflexivity.
Qed.
Theorem exit_two fs name docs : settles (tool O C order fs name docs) (Ok 2) ->
  exists r st pre o post, compiles O C fs name r st /\ docs = pre ++ o :: post /\ Forall (passes O (cell_defs st) (start_of r st)) pre /\ fails O (cell_defs st) (start_of r st) o.
Proof.
  intros [n H]. specialize (H n (Nat.le_refl n)). unfold tool in H. destruct (compile_grammar O C fs n name) as [[[r st]|e]|p|] eqn:Ec; try discriminate H.
  - destruct (docs_two _ _ _ _ H) as (pre & o & post & E & Hp & Hf). exists r, st, pre, o, post. split; [exact (compile_up _ _ _ _ Ec) | auto].
  - apply bind_inv in H as (a & _ & H). discriminate H.
Qed.
Theorem exit_codes fs name docs k : settles (tool O C order fs name docs) (Ok k) -> k = 0 \/ k = 1 \/ k = 2.
Proof.
  intros [n H]. specialize (H n (Nat.le_refl n)). unfold tool in H. destruct (compile_grammar O C fs n name) as [[[r st]|e]|p|] eqn:Ec; try discriminate H.
  - apply docs_codes in H. lia.
  - apply bind_inv in H as (a & _ & H). injection H as <-. auto.
Qed.

(** ** a diagnostic for what the validator reports can be made, and points into the file *)
Lemma diag_ok v t e sp text : Accept.Inv O lim any_type v -> in_token t e -> fst sp <= snd sp <= utf8_len text ->
  match t with TText s x => s + utf8_len x <= utf8_len text | _ => True end ->
  exists n s h, (forall m, n <= m -> diagnostic m order v text (DVal e sp) = Ok (s, h)) /\ fst s <= snd s <= utf8_len text.
Proof.
  intros (_ & _ & j & tt & ts & HK) Hin Hsp Ht. destruct (head_total O lim _ _ _ _ _ _ HK) as (n & f & Hf).
  assert (Hsub : forall lo hi, lo <= hi <= utf8_len text -> subspan (file_span text) lo hi = Ok (lo, hi)).
  { intros lo hi H. unfold subspan, file_span. cbn [fst snd]. rewrite (proj2 (Nat.leb_le lo hi)), (proj2 (Nat.leb_le (0 + hi) _)) by lia. reflexivity. }
  destruct e as [|tk|px|nm lo hi|lo hi]; cbn in Hin; try contradiction.
  - exists n, sp, (Some (help_text (describe (order (f []))))). split; [|exact Hsp]. intros m L. unfold diagnostic. rewrite Hsub by lia. cbn [rbind]. unfold heads. rewrite (Hf m L []). cbn [rbind]. destruct sp; reflexivity.
  - exists 0, sp, None. split; [|exact Hsp]. intros m _. cbn [diagnostic]. rewrite Hsub by lia. destruct sp; reflexivity.
  - destruct Hin as (s0 & x & -> & H1 & H2). exists 0, (lo, hi), None. split; [|cbn; lia]. intros m _. cbn [diagnostic]. rewrite Hsub by lia. reflexivity.
  - destruct Hin as (s0 & x & -> & H1 & H2). exists 0, (lo, hi), None. split; [|cbn; lia]. intros m _. cbn [diagnostic]. rewrite Hsub by lia. reflexivity.
Qed.
Lemma start_inv defs start : rng_schema defs start -> in_limits defs start -> exists n r, (forall m, n <= m -> new_validator defs m (Some start) = r) /\
  (r = Panic PTooManyPatterns \/ exists v, r = Ok v /\ Accept.Inv O lim any_type v).
Proof.
  intros H1 H2. destruct (new_validator_ok O lim defs any_type start (scope_ok defs O start H1 H2)) as (n & r & Hn & Hr). exists n, r. split; [exact Hn|].
  destruct Hr as [->|(st & id & -> & HI & HR & HSE & HG & HK)]; [left; reflexivity|]. right. exists (Validator st id false [] initial_entities). split; [reflexivity|].
  split; [exact HG|]. split; [reflexivity|]. exists 0, TN, []. exact HK.
Qed.
(** a rejected document whose positions are right is reported, not panicked on *)
Lemma doc_report d toks : forall v k n v' e, Accept.Inv O lim any_type v -> Events.run O n v toks = Ok (v', Some e) -> positioned d ->
  Forall (fun t => match t with TText s x => s + utf8_len x <= utf8_len (d_text d) | _ => True end) toks ->
  forall seen, (seen = true -> v_stack v <> []) -> stream_ok seen toks ->
  exists n0, forall m, n0 <= m -> doc_loop O order m v d k toks = Ok false.
Proof.
  induction toks as [|tk toks IH]; intros v k n v' e HI Hr Hp Hf seen Hs Hok; [discriminate Hr|].
  cbn [Events.run] in Hr. apply bind_inv in Hr as ([v1 e1] & Hv & Hr).
  assert (Ht : tok_ok v tk). { destruct tk as [| | | | | |nm [dd|]|pp ll|pp ll vv|[|pp ll|]|s0 tx|tx]; cbn in *; auto; apply Hs, Hok. }
  destruct (validate_total O lim any_type eq_refl v tk HI Ht) as (n1 & r & Hn & HI1).
  assert (E : r = Ok (v1, e1)). { rewrite <- (Hn (n + n1)) by lia. exact (le_ok _ _ _ (validate_mono O n (n + n1) v tk ltac:(lia)) Hv). } subst r.
  inversion Hf as [|? ? Hf1 Hf2]; subst. destruct e1 as [e1|].
  - destruct (diag_ok v1 tk e1 (d_spans d k) (d_text d) HI1 (validate_error_in O n v tk v1 e1 Hv) (proj1 Hp k) Hf1) as (n2 & s & h & Hd & _).
    exists (n1 + n2). intros m L. cbn [doc_loop validate_next]. rewrite (Hn m) by lia. cbn [rbind]. rewrite Hd by lia. reflexivity.
  - destruct (validate_stack O n v tk v1 None Hv) as (w & He & Hst).
    assert (Hrest : exists seen', (seen' = true -> v_stack v1 <> []) /\ stream_ok seen' toks).
    { destruct tk as [| | | | | |nm [dd|]|pp ll|pp ll vv|[|pp ll|]|s0 tx|tx]; cbn in Hok;
        try (exists seen; split; [rewrite Hst; intros Es; eapply stack_effect_nil; [exact He | exact (Hs Es)] | try exact Hok; apply Hok]; fail).
      exists true; split; [|exact Hok]. rewrite Hst. cbn in He. injection He as <-. intros _; cbn. discriminate. }
    destruct Hrest as (seen' & Hs' & Hok'). destruct (IH v1 (S k) n v' e HI1 Hr Hp Hf2 seen' Hs' Hok') as (n2 & H2).
    exists (n1 + n2). intros m L. cbn [doc_loop validate_next]. rewrite (Hn m) by lia. cbn [rbind]. apply H2. lia.
Qed.
Theorem exit_two_back fs name r st pre d post : compiles O C fs name r st -> rng_schema (cell_defs st) (start_of r st) -> in_limits (cell_defs st) (start_of r st) ->
  Forall (passes O (cell_defs st) (start_of r st)) pre -> rejects O (cell_defs st) (start_of r st) (d_toks d) -> stream_ok false (d_toks d) -> positioned d ->
  settles (tool O C order fs name (pre ++ Some d :: post)) (Ok 2).
Proof.
  intros [n1 Hc] H1 H2 Hpre (v' & e & n2 & Hrej) Hst Hpos. destruct (start_inv _ _ H1 H2) as (n3 & rv & Hn & Hv). destruct (docs_pass _ _ _ Hpre) as [n4 Hp].
  assert (E : exists v, rv = Ok v /\ Accept.Inv O lim any_type v).
  { destruct Hv as [->|Hv]; [|exact Hv]. exfalso. specialize (Hrej (n2 + n3) ltac:(lia)). unfold check in Hrej. rewrite Hn in Hrej by lia. discriminate Hrej. }
  destruct E as (v & -> & HI). assert (Hrun : Events.run O (n2 + n3) v (d_toks d) = Ok (v', Some e)). { specialize (Hrej (n2 + n3) ltac:(lia)). unfold check in Hrej. rewrite Hn in Hrej by lia. exact Hrej. }
  destruct (doc_report d (d_toks d) v 0 _ v' e HI Hrun Hpos (proj2 Hpos) false ltac:(discriminate) Hst) as (n5 & H5).
  exists (n1 + n3 + n4 + n5). intros m L. unfold tool. rewrite (Hc m) by lia. cbn. rewrite Hp by lia. cbn [docs_loop]. rewrite Hn by lia. cbn [rbind]. rewrite H5 by lia. reflexivity.
Qed.
(** C56: whatever the validator reports, on any stream a tokenizer can deliver, the diagnostic is made and its span lies in the file *)
Theorem diagnostic_total defs start : rng_schema defs start -> in_limits defs start -> forall toks t v e n, stream_ok false (toks ++ [t]) ->
  check O defs start (toks ++ [t]) n = Ok (v, Some e) -> (exists w, check O defs start toks n = Ok (w, None)) -> forall text sp, fst sp <= snd sp <= utf8_len text ->
  match t with TText s x => s + utf8_len x <= utf8_len text | _ => True end ->
  exists s h, settles (fun m => diagnostic m order v text (DVal e sp)) (Ok (s, h)) /\ fst s <= snd s <= utf8_len text.
Proof.
  intros H1 H2 toks t v e n Hst Hc (w & Hw) text sp Hsp Ht. destruct (start_inv _ _ H1 H2) as (n3 & rv & Hn & Hv). unfold check in Hc, Hw. apply bind_inv in Hc as (v0 & E0 & Hr). rewrite E0 in Hw. cbn [rbind] in Hw.
  assert (E : Accept.Inv O lim any_type v0). { pose proof (le_ok _ _ _ (new_mono defs n (n + n3) _ ltac:(lia)) E0) as K. rewrite Hn in K by lia. subst rv. destruct Hv as [Hv|(v1 & [= <-] & Hv)]; [discriminate Hv | exact Hv]. }
  destruct (run_inv O lim any_type eq_refl (toks ++ [t]) v0 false E ltac:(discriminate) Hst) as (n4 & r & Hr4 & HI).
  assert (Er : r = Ok (v, Some e)). { rewrite <- (Hr4 (n + n4)) by lia. exact (le_ok _ _ _ (run_mono O n (n + n4) ltac:(lia) _ _) Hr). } subst r.
  assert (Hin : in_token t e).
  { clear -Hr Hw. revert v0 Hr Hw. induction toks as [|x toks IH]; intros v0 Hr Hw; cbn [app Events.run] in Hr, Hw.
    - injection Hw as <-. apply bind_inv in Hr as ([v1 [e1|]] & Hv & Hr); [|discriminate Hr]. injection Hr as <- <-. exact (validate_error_in _ _ _ _ _ _ Hv).
    - apply bind_inv in Hr as ([v1 e1] & Hv & Hr). rewrite Hv in Hw. cbn [rbind] in Hw. destruct e1; [discriminate Hw|]. exact (IH v1 Hr Hw). }
  destruct (diag_ok v t e sp text HI Hin Hsp Ht) as (n5 & s & h & Hd & Hs). exists s, h. split; [exists n5; exact Hd | exact Hs].
Qed.
End P.

(** ** In terms of the schema as written and of documents as read *)
(** the tokenizer delivers the tokens of [x] and no error *)
Definition reads (d : document) (x : xdoc) : Prop := d_error d = None /\ d_toks d = doc_tokens x.
Lemma settles_ok_fun {A} (f : nat -> res A) a b : settles f (Ok a) -> settles f (Ok b) -> a = b.
Proof. intros H K. pose proof (settles_fun _ _ _ H K) as E. congruence. Qed.
Theorem exit_zero_valid O C order fs name docs : files_ok fs ->
  (forall r st, compiles O C fs name r st -> rng_schema (cell_defs st) (start_of r st) /\ in_limits (cell_defs st) (start_of r st)) ->
  settles (tool O C order fs name docs) (Ok 0) ->
  forall d x root, In (Some d) docs -> reads d x -> Document x root ->
  (forall r st, compiles O C fs name r st -> doc_fits (cell_defs st) (start_of r st) x /\ plain_for (cell_defs st) (start_of r st) root) -> schema_valid fs O C name root.
Proof.
  intros Hfs Hs H d x root Hin [_ Hx] HD Hp. apply exit_zero in H as (r & st & Hc & HF). destruct (Hs r st Hc) as [H1 H2]. destruct (Hp r st Hc) as [Hsc Hpl].
  rewrite Forall_forall in HF. destruct (HF _ Hin) as (d' & [= <-] & _ & Ha). rewrite Hx in Ha. destruct Hc as [n Hc]. exact (source_accepted_valid O C fs Hfs n name r st (Hc n (Nat.le_refl n)) H1 H2 x root Hsc HD Hpl Ha).
Qed.
Theorem exit_two_invalid O C order fs name docs : files_ok fs ->
  (forall r st, compiles O C fs name r st -> rng_schema (cell_defs st) (start_of r st) /\ in_limits (cell_defs st) (start_of r st)) ->
  settles (tool O C order fs name docs) (Ok 2) ->
  (forall d, In (Some d) docs -> exists x root, reads d x /\ Document x root /\
     forall r st, compiles O C fs name r st -> doc_fits (cell_defs st) (start_of r st) x /\ plain_for (cell_defs st) (start_of r st) root /\ harmless O (cell_defs st) [root] (start_of r st)) ->
  exists d x root, In (Some d) docs /\ reads d x /\ Document x root /\ ~ schema_valid fs O C name root.
Proof.
  intros Hfs Hs H Hd. apply exit_two in H as (r & st & pre & o & post & Hc & -> & _ & (d & -> & Hf)). destruct (Hs r st Hc) as [H1 H2].
  destruct (Hd d) as (x & root & [Hx1 Hx2] & HD & Hh); [apply in_or_app; right; left; reflexivity|].
  exists d, x, root. split; [apply in_or_app; right; left; reflexivity|]. split; [split; assumption|]. split; [exact HD|]. intros HV.
  destruct Hf as [[He _]|(v & e & Hr)]; [congruence|]. destruct (Hh r st Hc) as (Hsc & Hp & Hh'). destruct Hc as [n Hc].
  rewrite Hx2 in Hr. destruct (source_valid_accepted O C fs Hfs n name r st (Hc n (Nat.le_refl n)) H1 H2 x root Hsc HD Hp Hh' HV) as [[w Ha]|Ho].
  - pose proof (settles_fun _ _ _ Ha Hr) as E. discriminate E.
  - pose proof (settles_fun _ _ _ Ho Hr) as E. discriminate E.
Qed.
