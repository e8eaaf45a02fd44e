(** * DatatypeMain: the statements of PropsDatatype, proved. *)
From Coq Require Import QArith Qcanon String.
From Verif Require Import Base Regex Datatype Facets Spec Words DatatypeSpec DatatypeProof DatatypeProof2.
Local Open Scope N_scope.

Lemma compiles_xsd O C name ps d : compiles O C name ps d -> exists t, d = DXsd t /\ xsd_compile O C (lit name) ps = Ok (inl t).
Proof.
  unfold compiles, datatype_name. replace (str_eqb xsd_uri []) with false by reflexivity. rewrite str_eqb_refl. cbn [xsd_name].
  intros E. apply fbind_ok in E as (t & E1 & E2). injection E2 as <-. exists t; auto.
Qed.
Lemma fits_xsd O t s : fits O (DXsd t) s <-> xsd_valid O t s = Ok true.
Proof. reflexivity. Qed.

Lemma main_collapse s ws : ~ In 12 s -> Words s ws -> normalize_whitespace s = spaced ws.
Proof. intros H W. exact (proj1 (normalize_words s ws H W)). Qed.

Definition token_name (n : dtname) : Prop := n = DnToken \/ n = DnCName [] (lit "token") \/ n = DnCName xsd_uri (lit "token").
Definition string_name (n : dtname) : Prop := n = DnString \/ n = DnCName [] (lit "string") \/ n = DnCName xsd_uri (lit "string").
Lemma main_token n v s wv ws : token_name n -> ~ In 12 v -> ~ In 12 s -> Words v wv -> Words s ws ->
  exists x, datatype_value n v = Ok (inl x) /\ (dt_value_valid x s = Ok true <-> wv = ws).
Proof.
  intros Hn Hv Hs Wv Ws. pose proof (token_same v s wv ws Hv Hs Wv Ws) as H.
  destruct Hn as [->|[->| ->]].
  - eexists; split; [reflexivity|]. rewrite <- H. cbn. split; congruence.
  - eexists; split; [reflexivity|]. rewrite <- H. cbn. split; congruence.
  - eexists; split; [reflexivity|]. rewrite <- H. cbn [dt_value_valid xsd_value_valid]. split; congruence.
Qed.
Lemma main_string n v s : string_name n -> exists x, datatype_value n v = Ok (inl x) /\ (dt_value_valid x s = Ok true <-> s = v).
Proof.
  intros Hn. assert (H : str_eqb v s = true <-> s = v) by (rewrite str_eqb_eq; split; congruence).
  destruct Hn as [->|[->| ->]]; (eexists; split; [reflexivity|]; rewrite <- H; cbn [dt_value_valid xsd_value_valid]; split; congruence).
Qed.

Lemma main_int O C name reads lo hi ps d : int_kind name reads lo hi -> compiles O C name ps d ->
  exists q, Last_pattern ps q /\ forall s, fits O d s <-> int_verdict O reads lo hi ps q s.
Proof. intros K H. apply compiles_xsd in H as (t & -> & H). exact (int_kind_ok O C name reads lo hi ps t K H). Qed.
Lemma main_integer O C ps d : compiles O C "integer" ps d -> exists q, Last_pattern ps q /\ forall s, fits O d s <-> bigint_verdict O Int_u ps q s.
Proof. intros H. apply compiles_xsd in H as (t & -> & H). exact (integer_ok O C ps t H). Qed.
Lemma main_integer_plain O C ps d : compiles O C "integer" ps d -> (forall n v, In (n, v) ps -> ~ In 95 v) ->
  exists q, Last_pattern ps q /\ forall s, ~ In 95 s -> (fits O d s <-> bigint_verdict O Int_lit ps q s).
Proof.
  intros H Hps. destruct (main_integer O C ps d H) as (q & HL & Hq). exists q. split; [exact HL|]. intros s Hs. rewrite Hq. unfold bigint_verdict.
  assert (G : forall z, bounds_satisfied Int_u Z.le Z.lt ps z <-> bounds_satisfied Int_lit Z.le Z.lt ps z).
  { intros z. unfold bounds_satisfied. split; intros Hb n v Hin; specialize (Hb n v Hin); pose proof (fun k => Int_u_plain v k (Hps n v Hin)) as Hv;
      (destruct Hb as (H1 & H2 & H3 & H4); (split; [|split; [|split]]);
      intros E; [destruct (H1 E) as (k & Hk & Hl) | destruct (H2 E) as (k & Hk & Hl) | destruct (H3 E) as (k & Hk & Hl) | destruct (H4 E) as (k & Hk & Hl)]);
      exists k; (split; [apply Hv; exact Hk | exact Hl]). }
  split; intros [(z & Hz & Hb) Hp]; (split; [|exact Hp]); exists z; (split; [apply (Int_u_plain s z Hs); exact Hz | apply G; exact Hb]).
Qed.
Lemma main_positive O C ps d : compiles O C "positiveInteger" ps d -> exists q, Last_pattern ps q /\ forall s, fits O d s <-> bigint_verdict O Unsigned_u ps q s.
Proof. intros H. apply compiles_xsd in H as (t & -> & H). exact (positive_ok O C ps t H). Qed.
Lemma main_decimal O C ps d : compiles O C "decimal" ps d -> exists q, Last_pattern ps q /\ forall s, fits O d s <->
    (exists x, o_decimal O s = Some x /\ bounds_satisfied (fun v k => o_decimal O v = Some k) Qcle Qclt ps x) /\ pattern_holds O q s.
Proof. intros H. apply compiles_xsd in H as (t & -> & H). exact (decimal_ok O C ps t H). Qed.
Lemma main_xstring O C ps d : compiles O C "string" ps d -> exists q, Last_pattern ps q /\ forall s, fits O d s <-> lengths_satisfied ps s /\ pattern_holds O q s.
Proof. intros H. apply compiles_xsd in H as (t & -> & H). exact (string_ok O C ps t H). Qed.
Lemma main_normalized O C ps d : compiles O C "normalizedString" ps d -> exists q, Last_pattern ps q /\
  forall s ws, ~ In 12 s -> Words s ws -> (fits O d s <-> lengths_satisfied ps (spaced ws) /\ pattern_holds O q (spaced ws)).
Proof.
  intros H. apply compiles_xsd in H as (t & -> & H). destruct (normalized_ok O C ps t H) as (q & HL & Hq). exists q. split; [exact HL|].
  intros s ws Hs W. rewrite fits_xsd, Hq, (main_collapse s ws Hs W). reflexivity.
Qed.
Lemma main_ncname O C ps d : compiles O C "NCName" ps d -> forall s, fits O d s <-> lengths_satisfied ps s /\ NCName s.
Proof. intros H. apply compiles_xsd in H as (t & -> & H). exact (ncname_ok O C ps t H). Qed.
Lemma main_boolean O C ps d : compiles O C "boolean" ps d -> exists q, Last_pattern ps q /\
  forall s, fits O d s <-> (s = lit "true" \/ s = lit "false" \/ s = lit "1" \/ s = lit "0") /\ pattern_holds O q s.
Proof. intros H. apply compiles_xsd in H as (t & -> & H). exact (boolean_ok O C ps t H). Qed.
Lemma main_language O C ps d : compiles O C "language" ps d -> exists q, Last_pattern ps q /\ forall s, fits O d s <-> Language s /\ pattern_holds O q s.
Proof. intros H. apply compiles_xsd in H as (t & -> & H). exact (language_ok O C ps t H). Qed.
Lemma main_datetime O C ps d : compiles O C "dateTime" ps d -> exists q, Last_pattern ps q /\
  forall s, fits O d s <-> DateTime (fun c => o_unicode_digit O c = true) s /\ pattern_holds O q s.
Proof. intros H. apply compiles_xsd in H as (t & -> & H). exact (datetime_ok O C ps t H). Qed.
Lemma main_total O C name ps : len_order ps -> bounds_once ps -> exists r, datatype_name O C (DnCName xsd_uri name) ps = Ok r.
Proof.
  intros Hl Hb. unfold datatype_name. replace (str_eqb xsd_uri []) with false by reflexivity. rewrite str_eqb_refl. cbn [xsd_name].
  apply fbind_total; [apply compile_total; assumption|]. intros a _. unfold fok; eauto.
Qed.
Lemma main_duration O C d : compiles O C "duration" [] d -> forall s, fits O d (80 :: s).
Proof.
  intros H s. apply compiles_xsd in H as (t & -> & H). vm_compute in H. injection H as <-. unfold fits. cbn [dt_valid xsd_valid]. rewrite duration_P. reflexivity.
Qed.

(** ** Patterns *)
Lemma find_entry_name {A} n (l : list (string * A)) a : find_entry n l = Some a -> exists k, In (k, a) l /\ n = lit k.
Proof.
  induction l as [|[k b] l IH]; cbn; [discriminate|]. destruct (is_name n k) eqn:E; [intros H; injection H as <-; exists k; split; [auto | apply DatatypeProof.is_name_true; exact E]|].
  intros H. destruct (IH H) as (k' & Hin & Hn). exists k'; auto.
Qed.
Lemma length_facets_nopatt ps : forall f f', length_facets f ps = Ok (inl f') -> forall v, ~ In (lit "pattern", v) ps.
Proof.
  induction ps as [|[n v] ps IH]; intros f f'; cbn [length_facets]; [intros _ v []|].
  destruct (length_param f n v) as [r|] eqn:El; [|discriminate]. intros E w [Ew|Hin]; apply fbind_ok in E as (f1 & E1 & E2).
  - destruct (length_param_ok _ _ _ _ _ El E1) as [Hn _]. apply Hn. exact (f_equal fst Ew).
  - exact (IH _ _ E2 _ Hin).
Qed.
Lemma int_type_patt C pz mk ps t : int_type C pz mk ps = Ok (inl t) -> exists f q, t = mk f q /\ Last_pattern ps q.
Proof.
  intros E. unfold int_type in E. apply fbind_ok in E as ([f q] & E1 & E2). injection E2 as <-. exists f, q. split; [reflexivity|].
  destruct (bound_facets_ok Z.ltb Z.leb (fun a b => Z.leb a b = true) (fun a b => Z.ltb a b = true) (p_int pz) (fun v k => p_int pz v = Ok (inl k)) ltac:(tauto) ltac:(tauto) ltac:(auto) ltac:(congruence) C ps _ _ _ _ E1) as [K _]. exact K.
Qed.
Lemma double_patt C ps t : double_type C ps = Ok (inl t) -> exists q, t = XDouble q /\ Last_pattern ps q.
Proof.
  intros E. unfold double_type in E. apply fbind_ok in E as ([f q] & E1 & E2). injection E2 as <-. exists q. split; [reflexivity|].
  destruct (bound_facets_ok qc_ltb qc_leb (fun a b => qc_leb a b = true) (fun a b => qc_ltb a b = true) (p_f64 C) (fun v k => p_f64 C v = Ok (inl k)) ltac:(tauto) ltac:(tauto) ltac:(auto) ltac:(congruence) C ps _ _ _ _ E1) as [K _]. exact K.
Qed.
Lemma str_patt C mk ps t : str_type C mk ps = Ok (inl t) -> exists f q, t = mk f q /\ Last_pattern ps q.
Proof.
  intros E. unfold str_type in E. apply fbind_ok in E as ([f q] & E1 & E2). injection E2 as <-. exists f, q. split; [reflexivity|]. exact (proj1 (string_facets_ok _ _ _ _ _ _ E1)).
Qed.
(** the string a pattern parameter is matched against *)
Definition pattern_subject (name : string) (s : str) : str := if string_dec name "normalizedString" then normalize_whitespace s else s.
Lemma main_pattern O C name ps d v s : compiles O C name ps d -> Last_pattern ps (Some v) -> fits O d s -> o_regex O v (pattern_subject name s) = true.
Proof.
  intros H HL Hf. apply compiles_xsd in H as (t & -> & H). apply fits_xsd in Hf. unfold xsd_compile in H.
  destruct (find_entry (lit name) (facet_table O C)) as [g|] eqn:Eg; [|discriminate H]. apply fmap_ok in H.
  assert (Hin : exists k, In (k, g) (facet_table O C) /\ lit name = lit k) by (apply find_entry_name; exact Eg).
  destruct Hin as (k & Hin & Hk).
  assert (Hname : name = k).
  { clear -Hk. revert k Hk. induction name as [|a name IH]; intros [|b k] E; cbn in E; try discriminate; [reflexivity|]. injection E as E1 E2.
    rewrite (IH k E2). f_equal. rewrite <- (Ascii.ascii_N_embedding a), <- (Ascii.ascii_N_embedding b), E1. reflexivity. }
  subst k.
  assert (A : forall q (b : bool), Last_pattern ps q -> Ok (b && patt_ok O q s)%bool = Ok true -> o_regex O v s = true).
  { intros q b HL' E. rewrite (Last_pattern_fun _ _ _ HL' HL) in E. injection E as E. apply andb_prop in E as [_ E]. exact E. }
  assert (A1 : forall q, Last_pattern ps q -> Ok (patt_ok O q s) = Ok true -> o_regex O v s = true) by (intros q HL' E; apply (A q true HL'); exact E).
  assert (NP : forall f f', length_facets f ps = Ok (inl f') -> False).
  { intros f f' E. inversion HL as [|a w b Hx E1 E2]; subst. exact (length_facets_nopatt _ _ _ E v ltac:(apply in_or_app; right; left; reflexivity)). }
  unfold facet_table in Hin. cbn [In] in Hin.
  repeat (destruct Hin as [Ek|Hin];
    [injection Ek as <- <-;
     first [ apply str_patt in H as (f & q & -> & K)
           | apply int_type_patt in H as (f & q & -> & K)
           | apply double_patt in H as (q & -> & K)
           | apply pat_ok_gen in H as (q & -> & K)
           | (unfold len_type in H; apply fbind_ok in H as (f & E1 & _); destruct (NP _ _ E1))
           | destruct (decimal_facets_ok _ _ _ _ _ _ _ _ H) as (f & q & fd & td & -> & K & _) ];
     cbn [xsd_valid] in Hf; cbv [pattern_subject string_dec]; cbn;
     first [ exact (A q _ K Hf) | exact (A1 q K Hf) | 
       (rewrite (Last_pattern_fun _ _ _ K HL) in Hf; injection Hf as Hf; apply andb_prop in Hf as [_ Hf]; exact Hf) ] |]).
  destruct Hin.
Qed.
Lemma main_duration_exact O C ps d : compiles O C "duration" ps d -> exists q, Last_pattern ps q /\ forall s,
  fits O d s <-> ((exists a b, s = a ++ b /\ rlang duration_body a) \/ (exists a b, s = a ++ b /\ rlang (duration_alt (o_unicode_digit O)) b)) /\ pattern_holds O q s.
Proof.
  intros H. apply compiles_xsd in H as (t & -> & H). assert (E' : pat_type C XDuration ps = Ok (inl t)) by (apply (fmap_ok DFacet); exact H).
  apply pat_ok_gen in E' as (q & -> & HL). exists q. split; [exact HL|]. intros s. rewrite <- patt_ok_holds.
  assert (Hany : forall u, rlang (RStar any) u).
  { induction u as [|c u IH]; [constructor|]. change (c :: u) with ([c] ++ u). constructor; [constructor; reflexivity | exact IH]. }
  assert (HR : rmatch (duration_search (o_unicode_digit O)) s = true <->
     ((exists a b, s = a ++ b /\ rlang duration_body a) \/ (exists a b, s = a ++ b /\ rlang (duration_alt (o_unicode_digit O)) b))).
  { rewrite rmatch_spec. unfold duration_search. rewrite rlang_alt_inv, !rlang_seq_inv. split.
    - intros [(u & w & -> & Hu & _)|(u & w & -> & _ & Hw)]; [left | right]; eauto.
    - intros [(u & w & -> & Hu)|(u & w & -> & Hw)]; [left | right]; exists u, w; auto. }
  rewrite <- HR, <- andb_true_iff. unfold fits; cbn [dt_valid xsd_valid]. split; congruence.
Qed.
