(** * Accept: whole documents at store level, and totality for arbitrary token streams. *)
From Verif Require Import Base Datatype Store Deriv Events Lang LangFacts Wp TextProof TagProof AttProof Doc DocProof Tail.
Open Scope monad_scope.

Section Accept.
Variable O : oracles.
Variable allowed : panic -> Prop.
Variable T : nameclass -> ctype.
Hypothesis allowed_push : allowed PTooManyPatterns.
Notation KM := (Lang.KM O allowed).
Notation K st j t ts id := (Lang.KM O allowed st true j t ts id) (only parsing).
Notation G := (Lang.G O allowed T).
Notation L := (L O).
Notation LF := (LF O).
Notation wp := (Wp.wp O allowed T).

Lemma G_memo_ok st : G st -> memo_ok st.
Proof. intros HG p id H. exact (G_memo _ _ _ _ HG p id H). Qed.

(** ** Misc tokens *)
Lemma run_misc fuel toks : Forall misc_token toks -> forall v, nth_error (pats (v_store v)) (v_cur v) <> None ->
  run O fuel v toks = Ok (Validator (v_store v) (v_cur v) (v_last v) (v_stack v) (ents_after (v_ents v) toks), None).
Proof.
  induction 1 as [|tk toks Ht _ IH]; intros v Hc; [destruct v; reflexivity|]. cbn [run].
  unfold validate, validate_step, bind, patt.
  destruct (nth_error (pats (v_store v)) (v_cur v)) eqn:En; [|contradiction].
  destruct tk as [| | | | | |nn [d|]| | | | |]; try contradiction; cbn [rbind ret stack_effect];
    (rewrite IH; cbn [v_store v_cur v_last v_stack v_ents]; [reflexivity | rewrite En; discriminate]).
Qed.

(** ** Documents *)
Definition verdict (n : nat) (f : nat -> res (validator * option verror)) (P : Prop) : Prop :=
  exists r, (forall m, n <= m -> f m = r) /\
    match r with
    | Ok (_, None) => P
    | Ok (_, Some _) => ~ P
    | Panic p => allowed p
    | OutOfFuel => False
    end.

(** Whatever the pieces of character data, an accepted document is in the language. *)
Theorem accept_store_any tq st start j t ents d root :
  (forall nc nm, contains nc nm = true -> tle (T nc) (tq nm)) -> G st -> K st j t [] start -> SE st start -> doc_wf d ->
  cview (ents_after ents (d_prolog d)) [] (d_root d) = Some [root] ->
  exists n r, (forall m, n <= m -> run O m (Validator st start false [] ents) (doc_tokens d) = r) /\
    match r with
    | Ok (_, None) => L st start [] [root]
    | Ok (_, Some _) => item_ok tq root -> ~ L st start [] [root]
    | Panic p => allowed p
    | OutOfFuel => False
    end.
Proof.
  intros Htq HG HK HSE (Hpro & Hepi & Hroot) Hview.
  set (v0 := Validator st start false [] ents).
  set (v1 := Validator st start false [] (ents_after ents (d_prolog d))).
  assert (Hc0 : nth_error (pats (v_store v0)) (v_cur v0) <> None) by (eapply K_cur_some; exact HK).
  assert (H0 : forall m, run O m v0 (d_prolog d) = Ok (v1, None)).
  { intros m. rewrite run_misc; [reflexivity | exact Hpro | exact Hc0]. }
  destruct (node_ok O allowed T tq Htq allowed_push (d_root d) v1 j t [] [root]) as (n & r & Hr & Hp);
    [exact HG | exact HK | reflexivity | exact Hview|].
  exists n.
  assert (Hsep : tsep t ([root] ++ [])) by (intros _; destruct root; exact I).
  destruct r as [[v2 [e|]]|p|]; [| | |contradiction].
  - exists (Ok (v2, Some e)); split.
    + intros m Hm. unfold doc_tokens. rewrite run_app, H0; cbn [rbind]. rewrite run_app, (Hr m Hm); reflexivity.
    + intros Hok HL. apply (Hp (conj Hok I) [] []); [exact Hsep|]. cbn. apply LF_base. exact HL.
  - destruct Hp as (E & HG2 & ((j2 & HK2) & Hst & Hen & Hla & HL)).
    assert (Hc2 : nth_error (pats (v_store v2)) (v_cur v2) <> None) by (eapply K_cur_some; exact HK2).
    eexists; split.
    + intros m Hm. unfold doc_tokens. rewrite run_app, H0; cbn [rbind]. rewrite run_app, (Hr m Hm); cbn [rbind].
      apply run_misc; [exact Hepi | exact Hc2].
    + cbn. specialize (HL [] []). destruct HL as [HL _]. cbn in HL. unfold v1 in HL; cbn in HL.
      apply (@K_LF_nil O allowed true st j t start [] [root] [] HK), HL.
      destruct (d_root d) as [| | | |p l a sc kids] eqn:Ed; try contradiction.
      assert (Hm : memo_ok (v_store v1)) by (apply G_memo_ok; exact HG).
      destruct (node_shape_all O (XElem p l a sc kids) n v1 v2 0 Hm eq_refl (Hr n (le_n n))) as [_ Hs].
      destruct (Hs HSE) as (_ & Hsh & _ & Hlive). clear Hs.
      assert (Hnul : nul (v_store v2) (v_cur v2) = true).
      { inversion Hsh as [d0 id0 Hn|id0 Hq| |]; subst; [contradiction|]. unfold nul. destruct (nth_error (pats (v_store v2)) (v_cur v2)) eqn:Hn; [eapply Emp_nullable; eassumption | contradiction]. }
      apply LF_base. apply (K_nul O allowed _ _ _ _ _ HK2 eq_refl). exact Hnul.
  - exists (Panic p); split; [|exact Hp].
    intros m Hm. unfold doc_tokens. rewrite run_app, H0; cbn [rbind]. rewrite run_app, (Hr m Hm); reflexivity.
Qed.
Theorem accept_store tq st start j t ents d root :
  (forall nc nm, contains nc nm = true -> tle (T nc) (tq nm)) -> G st -> K st j t [] start -> SE st start -> doc_wf d ->
  cview (ents_after ents (d_prolog d)) [] (d_root d) = Some [root] -> item_ok tq root ->
  exists n, verdict n (fun m => run O m (Validator st start false [] ents) (doc_tokens d)) (L st start [] [root]).
Proof.
  intros Htq HG HK HSE Hwf Hview Hok.
  destruct (accept_store_any tq st start j t ents d root Htq HG HK HSE Hwf Hview) as (n & r & Hr & Hp).
  exists n, r. split; [exact Hr|]. destruct r as [[v [e|]]|p|]; auto.
Qed.

(** ** Totality on arbitrary tokens *)
(** end tag with no open element: the result is notAllowed *)
Lemma end_ok0 base j t ts id : K base j t ts id -> ts = [] -> forall st p, ext base st -> G st -> nth_error (pats st) id = Some p ->
  wp (fun m => end_tag_deriv m p) st (fun i st' => nth_error (pats st') i = Some PNotAllowed).
Proof.
  intros HK; revert j t ts id HK; refine (K_ind_t O allowed base _ _ _ _ _ _ _ _ _ _ _ _ _ _ _);
    [intros j t ts id l r n Hn HKl IHl HKr IHr Hf
    |intros j t ts id Hn
    |intros j t t' ts id p1 p2 Hn H1 IH1 H2 IH2
    |intros j t id l r n Hn HKl IHl HKr IHr Hf
    |intros j t id l r n Hn HKl IHl HKr IHr Hf Hc
    |intros j t id p0 n Hn HKp IHp Hf
    |intros j t id Hn
    |intros j t id Hn Ht
    |intros j j' t id nc p0 Hn HKp IHp
    |intros j t id nc p0 Hn Ht
    |intros j id d Hn Hd
    |intros j id v Hn Hd
    |intros j id d e Hn Hd He
    |intros j id p0 Hn HKp IHp]; intros Hts st p E HG Hp; try discriminate Hts;
    pose proof (ext_nth _ _ _ _ E Hn) as Hp'; rewrite Hp' in Hp; injection Hp as <-; apply wp_S; cbn [end_tag_deriv];
    try (apply wp_push0; [exact allowed_push | exact HG | reflexivity | reflexivity]; fail).
  destruct (inr_nth _ _ (K_inr O allowed _ _ _ _ _ HKl)) as [xl Hxl]. destruct (inr_nth _ _ (K_inr O allowed _ _ _ _ _ HKr)) as [xr Hxr].
  eapply wp_pattb; [eapply ext_nth; [exact E | exact Hxl]|]. eapply wp_pattb; [eapply ext_nth; [exact E | exact Hxr]|].
  eapply wp_bind; [apply IHl; [exact Hts | exact E | exact HG | eapply ext_nth; [exact E | exact Hxl]]|]. intros a st1 E1 HG1 Ha; cbn beta in *.
  eapply wp_bind; [apply IHr; [exact Hts | exact (ext_trans _ _ _ E E1) | exact HG1 | exact (ext_nth _ _ _ _ (ext_trans _ _ _ E E1) Hxr)]|].
  intros b st2 E2 HG2 Hb; cbn beta in *.
  unfold choice. eapply wp_pattb; [eapply ext_nth; [exact E2 | exact Ha]|]. eapply wp_pattb; [exact Hb|]. cbn [is_not_allowed].
  apply wp_ret; [exact HG2 | exact Hb].
Qed.

(** The state is healthy: patterns are well formed and their flags exact. *)
Definition Inv (v : validator) : Prop :=
  G (v_store v) /\ v_last v = false /\ exists j t ts, K (v_store v) j t ts (v_cur v).
(** An XML tokenizer delivers attributes and tag ends only after an element start. *)
Definition tok_ok (v : validator) (tk : token) : Prop :=
  match tk with
  | TAttribute _ _ _ | TElementEnd EndOpen | TElementEnd EndEmpty => v_stack v <> []
  | _ => True
  end.

Definition total (f : nat -> res (validator * option verror)) (Q : validator -> Prop) : Prop :=
  exists n r, (forall m, n <= m -> f m = r) /\
    match r with Ok (v', _) => Q v' | Panic p => allowed p | OutOfFuel => False end.

Lemma total_of_step v tk : Inv v -> stack_effect v tk = Ok v -> (match tk with TElementStart _ _ => False | _ => True end) ->
  wp (fun m => validate_step O m v tk) (v_store v) (fun r st' =>
     match r with inl (Some c) => inr_ st' c /\ (nth_error (pats st') c = Some PNotAllowed \/ exists j t ts, K st' j t ts c) | _ => True end) ->
  total (fun m => validate O m v tk) (fun v' => Inv v' /\ v_stack v' = v_stack v).
Proof.
  intros (HG & Hl & j & t & ts & HK) Hs Ht (n & r & H & Hr).
  destruct r as [[[[c|]|e] st']|p|]; [| | | |contradiction].
  - destruct Hr as (E & HG' & Hc & Hq). destruct (inr_nth _ _ Hc) as [x Hx].
    exists n. eexists; split; [intros m Hm; unfold validate; rewrite (H m Hm); cbn; rewrite Hs; cbn; unfold patt; rewrite Hx; cbn; reflexivity|].
    assert (Hf : (match tk with TElementStart _ _ => true | _ => false end) = false) by (destruct tk; auto; contradiction).
    rewrite Hf. destruct (is_not_allowed x) eqn:Ex; cbn.
    + split; [|reflexivity]. split; [exact HG'|]. split; [reflexivity|]. exists j, t, ts. eapply K_ext; eassumption.
    + split; [|reflexivity]. split; [exact HG'|]. split; [reflexivity|]. cbn. destruct Hq as [Hq|Hq]; [|exact Hq].
      rewrite Hx in Hq; injection Hq as ->; discriminate Ex.
  - destruct Hr as (E & HG' & _). exists n; eexists; split; [intros m Hm; unfold validate; rewrite (H m Hm); cbn; rewrite Hs; cbn; reflexivity|].
    cbn. split; [|reflexivity]. split; [exact HG'|]. split; [exact Hl|]. exists j, t, ts. eapply K_ext; eassumption.
  - destruct Hr as (E & HG' & _). exists n; eexists; split; [intros m Hm; unfold validate; rewrite (H m Hm); cbn; rewrite Hs; cbn; reflexivity|].
    cbn. split; [|reflexivity]. split; [exact HG'|]. split; [exact Hl|]. exists j, t, ts. eapply K_ext; eassumption.
  - exists n, (Panic p); split; [intros m Hm; unfold validate; rewrite (H m Hm); reflexivity | exact Hr].
Qed.

(** attribute derivatives and start tags, without hypotheses on the values *)
Lemma atts_tot m atts : forall st j t ts id, G st -> KM st m j t ts id ->
  wp (fun fu => atts_deriv O fu id atts) st (fun r st' =>
    match r with inl i => inr_ st' i /\ KM st' m j t ts i | inr e => True end).
Proof.
  induction atts as [|x atts IH]; intros st j t ts id HG HK; cbn [atts_deriv].
  - apply wp_ret; [exact HG|]. split; [eapply K_inr; exact HK | exact HK].
  - eapply wp_bind; [eapply att_ok; [exact allowed_push | exact HK | apply ext_refl | exact HG | intros ? ? HH; discriminate HH]|].
    intros [i mm] st1 E1 HG1 [(Hid & Hi & HKi & HLi) _]; cbn [fst snd] in *.
    destruct (inr_nth _ _ Hi) as [y Hy]. eapply wp_pattb; [exact Hy|].
    assert (HK1 : KM st1 m j t ts id) by (eapply K_ext; [exact E1 | exact HK]).
    destruct (is_not_allowed y) eqn:Ey.
    + apply wp_ret; [exact HG1 | exact I].
    + apply (IH st1 j t ts i HG1 (HKi _ _ _ _ HK1)).
Qed.

Lemma current_element_tot e stk : exists r, current_element (e :: stk) = Ok r.
Proof. unfold current_element. destruct (try_lookup_ns _ _); eauto. Qed.

Lemma open_tot v evt j t ts p : G (v_store v) -> K (v_store v) j t ts (v_cur v) ->
  nth_error (pats (v_store v)) (v_cur v) = Some p -> v_stack v <> [] ->
  wp (fun m => close_element_start O m (v_stack v) evt p) (v_store v) (fun r st' =>
    match r with inl i => inr_ st' i /\ (exists j', K st' j' TA (t :: ts) i) | inr e => True end).
Proof.
  intros HG HK Hp Hstk. unfold close_element_start.
  destruct (v_stack v) as [|e stk] eqn:Est; [contradiction|].
  destruct (current_element_tot e stk) as [r Hr]. rewrite Hr.
  eapply wp_bind; [apply (wp_lift O allowed T (Ok r) _ (fun a _ => a = r)); [exact HG | discriminate | discriminate | intros a Ha; injection Ha; auto]|].
  intros r0 st0 E0 HG0 ->. destruct r as [nm|er]; [|apply wp_ret; [exact HG0 | exact I]].
  assert (Hp0 : nth_error (pats st0) (v_cur v) = Some p) by (eapply ext_nth; [exact E0 | exact Hp]).
  eapply wp_bind; [eapply (open_ok O allowed T) with (t0 := TA); [exact allowed_push | intros nc _; apply tle_TA | exact HK | exact E0 | exact HG0 | exact Hp0]|].
  intros d st1 E1 HG1 [[j1 HK1] (Hid & Hi & HOD)]; cbn beta in *.
  destruct (inr_nth _ _ Hi) as [x Hx]. eapply wp_pattb; [exact Hx|].
  destruct (is_not_allowed x) eqn:Ex; [apply wp_ret; [exact HG1 | exact I]|].
  cbn [current_attributes].
  eapply wp_bind; [apply (wp_lift O allowed T (Ok (resolve_attrs (e :: stk) (e_atts e))) _ (fun a _ => a = resolve_attrs (e :: stk) (e_atts e)));
    [exact HG1 | discriminate | discriminate | intros a Ha; injection Ha; auto]|].
  intros r1 st2 E2 HG2 ->. destruct (resolve_attrs (e :: stk) (e_atts e)) as [atts|er]; [|apply wp_ret; [exact HG2 | exact I]].
  eapply wp_bind; [eapply (atts_tot false atts st2); [exact HG2 | eapply K_ext; [exact E2 | exact HK1]]|].
  intros [q|e'] st3 E3 HG3 H3; cbn beta in *; [|apply wp_ret; [exact HG3 | exact I]].
  destruct H3 as (Hq & HKq). destruct (inr_nth _ _ Hq) as [y Hy]. eapply wp_pattb; [exact Hy|].
  destruct (is_not_allowed y) eqn:Ey; [apply wp_ret; [exact HG3 | exact I]|].
  eapply wp_bind; [eapply close_ok; [exact allowed_push | exact HKq | apply ext_refl | exact HG3]|].
  intros c st4 E4 HG4 (Hq4 & Hc & HKc & HLc); cbn beta in *. destruct (inr_nth _ _ Hc) as [z Hz]. eapply wp_pattb; [exact Hz|].
  destruct (is_not_allowed z) eqn:Ez; (apply wp_ret; [exact HG4|]); [exact I|].
  split; [exact Hc|]. exists j1. eapply HKc. eapply K_ext; [exact E4 | exact HKq].
Qed.

Definition healthy (st : store) (c : pid) : Prop :=
  inr_ st c /\ (nth_error (pats st) c = Some PNotAllowed \/ exists j t ts, K st j t ts c).
Lemma end_tot st c p j t ts : G st -> K st j t ts c -> nth_error (pats st) c = Some p ->
  wp (fun m => end_element O m false p) st (fun i st' => healthy st' i).
Proof.
  intros HG HK Hp. destruct ts as [|t' ts].
  - unfold end_element.
    eapply wp_bind; [apply (wp_ret O allowed T p st (fun a _ => a = p)); [exact HG | reflexivity]|].
    intros q st0 E0 HG0 ->.
    eapply wp_mono; [eapply end_ok0; [exact HK | reflexivity | exact E0 | exact HG0 | eapply ext_nth; [exact E0 | exact Hp]]|].
    intros i st1 E1 HG1 Hi; cbn beta in *. split; [eapply nth_inr; exact Hi | left; exact Hi].
  - eapply wp_mono; [eapply end_wp; [exact allowed_push | exact HG | exact HK | exact Hp]|].
    intros i st1 E1 HG1 (Hi & HKi & _). split; [exact Hi | right; eauto].
Qed.

Lemma validate_total v tk : Inv v -> tok_ok v tk -> total (fun m => validate O m v tk) Inv.
Proof.
  intros HI Ht. pose proof HI as (HG & Hl & j & t & ts & HK).
  destruct (inr_nth _ _ (K_inr O allowed _ _ _ _ _ HK)) as [p Hp].
  assert (Hcase : forall tk', tk = tk' -> stack_effect v tk' = Ok v -> (match tk' with TElementStart _ _ => False | _ => True end) ->
    wp (fun m => validate_step O m v tk') (v_store v) (fun r st' => match r with inl (Some c) => healthy st' c | _ => True end) ->
    total (fun m => validate O m v tk') Inv).
  { intros tk' _ H1 H2 H3. destruct (total_of_step v tk' HI H1 H2 H3) as (n & r & Hn & Hr).
    exists n, r; split; [exact Hn|]. destruct r as [[v' e]| |]; auto. apply Hr. }
  assert (Hrest : forall tk' v', (forall m st, validate_step O m v tk' st = bind (patt (v_cur v)) (fun _ => ret (inl None)) st) ->
     stack_effect v tk' = Ok v' -> v_store v' = v_store v -> v_cur v' = v_cur v -> v_last v' = v_last v ->
     total (fun m => validate O m v tk') Inv).
  { intros tk' v' Hs He H1 H2 H3. exists 0, (Ok (Validator (v_store v) (v_cur v') (v_last v') (v_stack v') (v_ents v'), None)); split.
    - intros m _. unfold validate. rewrite Hs. unfold bind, patt. rewrite Hp. cbn. rewrite He. reflexivity.
    - split; [exact HG|]. cbn. rewrite H2, H3. split; [exact Hl|]. exists j, t, ts; exact HK. }
  destruct tk as [| | | | | |nm [dd|]|pp ll|pp ll vv|[|pp ll|]|s0 tx|tx];
    try (eapply Hrest; [intros m st; reflexivity | reflexivity | reflexivity | reflexivity | reflexivity]; fail).
  - (* external entity *)
    apply (Hcase _ eq_refl); [reflexivity | exact I|]. unfold validate_step. eapply wp_pattb; [exact Hp|].
    apply wp_ret; [exact HG | exact I].
  - (* attribute *)
    cbn in Ht. destruct (v_stack v) as [|e stk] eqn:Est; [contradiction|].
    eapply Hrest; [intros m st; reflexivity | cbn; rewrite Est; reflexivity | reflexivity | reflexivity | reflexivity].
  - (* > *)
    cbn in Ht. apply (Hcase _ eq_refl); [reflexivity | exact I|]. unfold validate_step. eapply wp_pattb; [exact Hp|].
    eapply wp_bind; [eapply open_tot; [exact HG | exact HK | exact Hp | exact Ht]|].
    intros [i|e] st1 E1 HG1 H1; cbn beta in *; (apply wp_ret; [exact HG1|]); [|exact I].
    destruct H1 as (Hi & j' & HKi). split; [exact Hi | right; eauto].
  - (* end tag *)
    apply (Hcase _ eq_refl); [reflexivity | exact I|]. unfold validate_step. eapply wp_pattb; [exact Hp|]. rewrite Hl.
    eapply wp_bind; [eapply end_tot; [exact HG | exact HK | exact Hp]|].
    intros i st1 E1 HG1 H1; cbn beta in *. apply wp_ret; [exact HG1 | exact H1].
  - (* /> *)
    cbn in Ht. apply (Hcase _ eq_refl); [reflexivity | exact I|]. unfold validate_step. eapply wp_pattb; [exact Hp|]. rewrite Hl.
    eapply wp_bind; [eapply open_tot; [exact HG | exact HK | exact Hp | exact Ht]|].
    intros [i|e] st1 E1 HG1 H1; cbn beta in *; [|apply wp_ret; [exact HG1 | exact I]].
    destruct H1 as (Hi & j' & HKi). destruct (inr_nth _ _ Hi) as [q Hq]. eapply wp_pattb; [exact Hq|].
    eapply wp_bind; [eapply end_tot; [exact HG1 | exact HKi | exact Hq]|].
    intros i2 st2 E2 HG2 H2; cbn beta in *. apply wp_ret; [exact HG2 | exact H2].
  - (* text *)
    apply (Hcase _ eq_refl); [reflexivity | exact I|]. unfold validate_step. eapply wp_pattb; [exact Hp|].
    destruct (text_data (v_ents v) s0 tx) as [data|er]; [|apply wp_ret; [exact HG | exact I]].
    eapply wp_bind; [eapply (text_step O allowed T allowed_push); [exact HG | reflexivity | exact HK | apply ext_refl | exact HG | exact Hp]|].
    intros i st1 E1 HG1 (Hi1 & Hi2 & HKi & _); cbn beta in *. destruct (inr_nth _ _ Hi2) as [x Hx].
    eapply wp_pattb; [exact Hx|]. destruct (is_not_allowed x); (apply wp_ret; [exact HG1|]); [exact I|].
    split; [exact Hi2|]. right; exists j, t, ts. apply HKi. eapply K_ext; [exact E1 | exact HK].
  - (* cdata *)
    apply (Hcase _ eq_refl); [reflexivity | exact I|]. unfold validate_step. eapply wp_pattb; [exact Hp|].
    eapply wp_bind; [eapply (text_step O allowed T allowed_push); [exact HG | reflexivity | exact HK | apply ext_refl | exact HG | exact Hp]|].
    intros i st1 E1 HG1 (Hi1 & Hi2 & HKi & _); cbn beta in *. apply wp_ret; [exact HG1|].
    split; [exact Hi2|]. right; exists j, t, ts. apply HKi. eapply K_ext; [exact E1 | exact HK].
Qed.

(** A caller that goes on after errors. *)
Fixpoint feed (fuel : nat) (v : validator) (toks : list token) : res (validator * list (option verror)) :=
  match toks with
  | [] => Ok (v, [])
  | t :: rest =>
      rbind (validate O fuel v t) (fun '(v', e) =>
      rbind (feed fuel v' rest) (fun '(v2, es) => Ok (v2, e :: es)))
  end.
(** Attributes and tag ends come after some element start. *)
Fixpoint stream_ok (seen : bool) (toks : list token) : Prop :=
  match toks with
  | [] => True
  | TElementStart _ _ :: r => stream_ok true r
  | (TAttribute _ _ _ | TElementEnd EndOpen | TElementEnd EndEmpty) :: r => seen = true /\ stream_ok seen r
  | _ :: r => stream_ok seen r
  end.

Lemma stack_effect_nil v tk v' : stack_effect v tk = Ok v' -> v_stack v <> [] -> v_stack v' <> [].
Proof.
  intros H Hs. destruct tk as [| | | | | |nm [dd|]|pp ll|pp ll vv|[|pp ll|]|s0 tx|tx]; cbn in H; try (injection H as <-; cbn; auto; try discriminate; fail).
  destruct (v_stack v) as [|e stk]; [contradiction|]. cbn in H. injection H as <-; cbn. discriminate.
Qed.
Lemma validate_stack fuel v tk v' e : validate O fuel v tk = Ok (v', e) -> exists v1, stack_effect v tk = Ok v1 /\ v_stack v' = v_stack v1.
Proof.
  unfold validate. destruct (validate_step O fuel v tk (v_store v)) as [[r st]| |]; cbn; try discriminate.
  destruct (stack_effect v tk) as [v1| |]; cbn; try discriminate. intros H; exists v1; split; [reflexivity|].
  destruct r as [[c|]|er]; [|injection H as <- <-; reflexivity|injection H as <- <-; reflexivity].
  destruct (patt c st) as [[x st2]| |]; cbn in H; try discriminate.
  destruct (is_not_allowed x); injection H as <- <-; reflexivity.
Qed.

Theorem feed_total toks : forall v seen, Inv v -> (seen = true -> v_stack v <> []) -> stream_ok seen toks ->
  exists n r, (forall m, n <= m -> feed m v toks = r) /\
    match r with Ok (v', es) => Inv v' /\ length es = length toks | Panic p => allowed p | OutOfFuel => False end.
Proof.
  induction toks as [|tk toks IH]; intros v seen HI Hs Hok.
  - exists 0, (Ok (v, [])); split; [reflexivity|]. split; [exact HI | reflexivity].
  - assert (Ht : tok_ok v tk).
    { destruct tk as [| | | | | |nm [dd|]|pp ll|pp ll vv|[|pp ll|]|s0 tx|tx]; cbn in *; auto; apply Hs, Hok. }
    destruct (validate_total v tk HI Ht) as (n & r & Hn & Hr).
    destruct r as [[v' e]|p|]; [| |contradiction].
    + destruct (validate_stack n v tk v' e (Hn n (le_n n))) as (v1 & He & Hst).
      assert (Hrest : exists seen', (seen' = true -> v_stack v' <> []) /\ stream_ok seen' toks).
      { destruct tk as [| | | | | |nm [dd|]|pp ll|pp ll vv|[|pp ll|]|s0 tx|tx]; cbn in Hok;
          try (exists seen; split; [rewrite Hst; intros Es; eapply stack_effect_nil; [exact He | exact (Hs Es)] | try exact Hok; apply Hok]; fail).
        exists true; split; [|exact Hok]. rewrite Hst. cbn in He. injection He as <-. intros _; cbn. discriminate. }
      destruct Hrest as (seen' & Hs' & Hok'). destruct (IH v' seen' Hr Hs' Hok') as (n2 & r2 & Hn2 & Hr2).
      exists (n + n2). destruct r2 as [[v2 es]|p|]; [| |contradiction].
      * eexists; split; [intros m Hm; cbn [feed]; rewrite (Hn m) by lia; cbn [rbind]; rewrite (Hn2 m) by lia; reflexivity|].
        cbn. destruct Hr2 as [H1 H2]. split; [exact H1 | rewrite H2; reflexivity].
      * exists (Panic p); split; [|exact Hr2]. intros m Hm; cbn [feed]; rewrite (Hn m) by lia; cbn [rbind]; rewrite (Hn2 m) by lia; reflexivity.
    + exists n, (Panic p); split; [|exact Hr]. intros m Hm; cbn [feed]; rewrite (Hn m) by lia; reflexivity.
Qed.

End Accept.
