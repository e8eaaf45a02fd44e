(** * DocProof: the validator run on the tokens of a document. *)
From Verif Require Import Base Datatype Store Deriv Events Lang LangFacts Wp TextProof TagProof AttProof Doc.
Open Scope monad_scope.

Lemma elems_of_elem p l a sc kids : elems_of (XElem p l a sc kids) = elems_list kids ++ [el_of p l a].
Proof. reflexivity. Qed.
Lemma cview_elem ents stk p l a sc kids : cview ents stk (XElem p l a sc kids) =
  let stk' := el_of p l a :: stk in
  match try_lookup_ns stk' p with
  | inr _ => None
  | inl u => match resolve_attrs stk' (plain_atts a) with
             | inr _ => None
             | inl atts => match cviews ents stk' kids with
                           | None => None
                           | Some ks => Some [Elm (QName u l) atts ks]
                           end
             end
  end.
Proof.
  assert (H : forall stk, (fix go (stk : elstack) (ks : list xnode) : option (list item) :=
                       match ks with
                       | [] => Some []
                       | k :: ks' => match cview ents stk k with
                                     | None => None
                                     | Some w => match go (elems_of k ++ stk) ks' with
                                                 | None => None
                                                 | Some w' => Some (w ++ w')
                                                 end
                                     end
                       end) stk kids = cviews ents stk kids).
  { induction kids as [|k ks IH]; intros sk; [reflexivity|]. cbn [cviews]. rewrite <- IH. reflexivity. }
  cbn [cview]. cbv zeta. rewrite H. reflexivity.
Qed.
Lemma item_ok_elem tq nm a k : item_ok tq (Elm nm a k) <-> tsep (tq nm) k /\ items_ok tq k.
Proof. reflexivity. Qed.
Lemma items_ok_app tq a b : items_ok tq (a ++ b) <-> items_ok tq a /\ items_ok tq b.
Proof. induction a; cbn; tauto. Qed.
Lemma sep_tl a w : sep (a :: w) -> sep w.
Proof. destruct a; [|intro H; exact H]. destruct w as [|[s'|]]; cbn; tauto. Qed.
Lemma tsep_app_r t a b : tsep t (a ++ b) -> tsep t b.
Proof. intros H E; specialize (H E). revert H. induction a as [|x a IH]; [auto|]. intros H; apply IH. apply (sep_tl x). exact H. Qed.
Lemma sep_app_r a b : sep (a ++ b) -> sep b.
Proof. induction a as [|x a IH]; [auto|]. intros H; apply IH. apply (sep_tl x). exact H. Qed.

Section Run.
Variable O : oracles.
Variable allowed : panic -> Prop.
Variable T : nameclass -> ctype.
Variable tq : qname -> ctype.
Hypothesis Htq : forall nc nm, contains nc nm = true -> tle (T nc) (tq nm).
Hypothesis allowed_push : allowed PTooManyPatterns.
Notation KM := (Lang.KM O allowed).
Notation K st j t ts id := (Lang.KM O allowed st true j t ts id) (only parsing).
Notation G := (Lang.G O allowed T).
Notation L := (L O).
Notation LF := (LF O).
Notation wp := (Wp.wp O allowed T).

(** Outcome of a run: [Q] on success, [R] on a reported error. *)
Definition wpv (f : nat -> res (validator * option verror)) (st : store) (Q : validator -> Prop) (R : verror -> Prop) : Prop :=
  exists n r, (forall m, n <= m -> f m = r) /\
    match r with
    | Ok (v', None) => ext st (v_store v') /\ G (v_store v') /\ Q v'
    | Ok (v', Some e) => R e
    | Panic p => allowed p
    | OutOfFuel => False
    end.

Lemma wpv_mono f st (Q Q' : validator -> Prop) (R R' : verror -> Prop) : wpv f st Q R ->
  (forall v', ext st (v_store v') -> G (v_store v') -> Q v' -> Q' v') -> (forall e, R e -> R' e) -> wpv f st Q' R'.
Proof.
  intros (n & r & H & Hr) HQ HR; exists n, r; split; [exact H|].
  destruct r as [[v' [e|]]| |]; auto. destruct Hr as (E & HG & Hq); auto.
Qed.
Lemma wpv_nil v (Q : validator -> Prop) R : G (v_store v) -> Q v -> wpv (fun m => run O m v []) (v_store v) Q R.
Proof. intros; exists 0, (Ok (v, None)); split; [reflexivity|]. auto using ext_refl. Qed.
Lemma run_app fuel toks1 toks2 : forall v, run O fuel v (toks1 ++ toks2) =
  rbind (run O fuel v toks1) (fun '(v', e) => match e with Some err => Ok (v', Some err) | None => run O fuel v' toks2 end).
Proof.
  induction toks1 as [|t ts IH]; intros v; cbn; [reflexivity|].
  destruct (validate O fuel v t) as [[v' [e|]]| |]; cbn; auto.
Qed.
Lemma wpv_app v toks1 toks2 Q1 Q R : wpv (fun m => run O m v toks1) (v_store v) Q1 R ->
  (forall v', ext (v_store v) (v_store v') -> G (v_store v') -> Q1 v' ->
     wpv (fun m => run O m v' toks2) (v_store v') Q R) ->
  wpv (fun m => run O m v (toks1 ++ toks2)) (v_store v) Q R.
Proof.
  intros (n & r & H & Hr) Hk. destruct r as [[v' [e|]]|p|]; [| |exists n, (Panic p)|contradiction].
  - exists n, (Ok (v', Some e)); split; [|exact Hr]. intros m Hm; rewrite run_app, (H m Hm); reflexivity.
  - destruct Hr as (E & HG & Hq). destruct (Hk v' E HG Hq) as (n2 & r2 & H2 & Hr2).
    exists (n + n2), r2; split.
    + intros m Hm; rewrite run_app, (H m) by lia; cbn. apply H2; lia.
    + destruct r2 as [[v2 [e2|]]| |]; auto. destruct Hr2 as (E2 & HG2 & Hq2). split; [eapply ext_trans; eassumption | auto].
  - split; [|exact Hr]. intros m Hm; rewrite run_app, (H m Hm); reflexivity.
Qed.
Lemma wpv_cons v tk toks2 Q1 Q R : wpv (fun m => run O m v [tk]) (v_store v) Q1 R ->
  (forall v', ext (v_store v) (v_store v') -> G (v_store v') -> Q1 v' ->
     wpv (fun m => run O m v' toks2) (v_store v') Q R) ->
  wpv (fun m => run O m v (tk :: toks2)) (v_store v) Q R.
Proof. apply (wpv_app v [tk]). Qed.
Lemma wpv_one v t Q R : wpv (fun m => validate O m v t) (v_store v) Q R -> wpv (fun m => run O m v [t]) (v_store v) Q R.
Proof.
  intros (n & r & H & Hr); exists n, r; split; [|exact Hr]. intros m Hm; cbn; rewrite (H m Hm).
  destruct r as [[v' [e|]]| |]; reflexivity.
Qed.

(** From the pattern part to [validate]. *)
Definition set_cur (v : validator) (st : store) (c : pid) : validator :=
  Validator st c false (v_stack v) (v_ents v).
Lemma wpv_validate v t (Q : pid -> store -> Prop) (R : verror -> Prop) (P : validator -> Prop) :
  stack_effect v t = Ok v -> (match t with TElementStart _ _ => False | _ => True end) ->
  wp (fun m => validate_step O m v t) (v_store v) (fun r st' =>
     match r with inl None => False | inl (Some c) => Q c st' /\ inr_ st' c | inr e => R e end) ->
  (forall c st', ext (v_store v) st' -> G st' -> Q c st' -> nth_error (pats st') c = Some PNotAllowed -> R (ENotAllowed t)) ->
  (forall c st' x, ext (v_store v) st' -> G st' -> Q c st' -> nth_error (pats st') c = Some x -> x <> PNotAllowed ->
      P (set_cur v st' c)) ->
  wpv (fun m => validate O m v t) (v_store v) P R.
Proof.
  intros Hs Ht (n & r & H & Hr) HR HP.
  destruct r as [[[[c|]|e] st']|p|]; [| | | |contradiction].
  - destruct Hr as (E & HG & Hq & Hc). destruct (inr_nth _ _ Hc) as [x Hx].
    exists n. destruct (is_not_allowed x) eqn:Ex.
    + destruct x; try discriminate Ex. eexists; split.
      * intros m Hm. unfold validate. rewrite (H m Hm); cbn. rewrite Hs; cbn. unfold patt; rewrite Hx; cbn. reflexivity.
      * eapply HR; eassumption.
    + eexists; split.
      * intros m Hm. unfold validate. rewrite (H m Hm); cbn. rewrite Hs; cbn. unfold patt; rewrite Hx; cbn. rewrite Ex. reflexivity.
      * assert (Hf : (match t with TElementStart _ _ => true | _ => false end) = false) by (destruct t; auto; contradiction).
        cbn; rewrite Hf. split; [exact E|]. split; [exact HG|]. apply (HP c st' x); auto. intros ->; discriminate Ex.
  - destruct Hr as (_ & _ & []).
  - destruct Hr as (E & HG & Hq). exists n; eexists; split.
    + intros m Hm. unfold validate. rewrite (H m Hm); cbn. rewrite Hs; cbn. reflexivity.
    + exact Hq.
  - exists n, (Panic p); split; [|exact Hr]. intros m Hm. unfold validate; rewrite (H m Hm); reflexivity.
Qed.

(** ** Text *)
Lemma text_step v s j t ts c : G (v_store v) -> v_cur v = c -> K (v_store v) j t ts c ->
  forall st p, ext (v_store v) st -> G st -> nth_error (pats st) c = Some p ->
  wp (fun m => text_deriv O m p s) st (fun i st' => TD O allowed st' c s i).
Proof.
  intros HG Hc HK st p E HG' Hp. eapply (text_ok_all O allowed T allowed_push j); eassumption.
Qed.

Lemma NA_absurd st i a w ks : nth_error (pats st) i = Some PNotAllowed -> LF st i a w ks -> False.
Proof. intros H. apply (LF_na_inv O st i a w ks) in H. tauto. Qed.

(** Specification of reading content [ws]. *)
Definition reads (v : validator) (ts : list ctype) (t : ctype) (ws : list item) (stk : elstack) (v' : validator) : Prop :=
  (exists j, K (v_store v') j t ts (v_cur v')) /\ v_stack v' = stk /\ v_ents v' = v_ents v /\ v_last v' = false /\
  forall w ks, (LF (v_store v') (v_cur v') [] w ks -> LF (v_store v) (v_cur v) [] (ws ++ w) ks) /\
    (items_ok tq ws -> tsep t (ws ++ w) -> LF (v_store v) (v_cur v) [] (ws ++ w) ks -> LF (v_store v') (v_cur v') [] w ks).
Definition refuses (v : validator) (t : ctype) (ws : list item) : Prop :=
  items_ok tq ws -> forall w ks, tsep t (ws ++ w) -> ~ LF (v_store v) (v_cur v) [] (ws ++ w) ks.

Lemma tsep_exok t s w : tsep t (Txt s :: w) -> exok t s w.
Proof. intros H. destruct t; [left; discriminate | left; discriminate | right; right; apply H; reflexivity]. Qed.

Lemma text_wpv v tk s j t ts : G (v_store v) -> K (v_store v) j t ts (v_cur v) -> v_last v = false ->
  (exists start raw, tk = TText start raw /\ text_data (v_ents v) start raw = inl s) \/ tk = TCdata s ->
  wpv (fun m => run O m v [tk]) (v_store v) (reads v ts t [Txt s] (v_stack v)) (fun _ => refuses v t [Txt s]).
Proof.
  intros HG HK Hl Htk. apply wpv_one.
  destruct (inr_nth _ _ (K_inr O allowed _ _ _ _ _ HK)) as [p Hp].
  assert (Hna : forall i st', ext (v_store v) st' -> TD O allowed st' (v_cur v) s i ->
            nth_error (pats st') i = Some PNotAllowed -> refuses v t [Txt s]).
  { intros i st' E (Hi1 & Hi2 & HKi & HLi) Hx _ w ks Hsep HL.
    apply (LF_ext O _ st') in HL; [|exact E].
    apply (HLi j t ts) in HL; [exact (NA_absurd _ _ _ _ _ Hx HL) | eapply K_ext; eassumption | apply tsep_exok; exact Hsep]. }
  eapply (wpv_validate v tk (fun c st' => TD O allowed st' (v_cur v) s c)).
  - destruct Htk as [(start & raw & -> & _)| ->]; reflexivity.
  - destruct Htk as [(start & raw & -> & _)| ->]; exact I.
  - unfold validate_step. eapply wp_pattb; [exact Hp|].
    destruct Htk as [(start & raw & -> & Hd)| ->].
    + rewrite Hd. eapply wp_bind; [eapply text_step; [exact HG | reflexivity | exact HK | apply ext_refl | exact HG | exact Hp]|].
      intros i st' E HG' HT; cbn beta in *. pose proof HT as (Hi1 & Hi2 & _). destruct (inr_nth _ _ Hi2) as [x Hx].
      eapply wp_pattb; [exact Hx|]. destruct (is_not_allowed x) eqn:Ex.
      * apply wp_ret; [exact HG'|]. destruct x; try discriminate Ex.
        eapply Hna; [exact E | exact HT | exact Hx].
      * apply wp_ret; [exact HG'|]. split; [exact HT | exact Hi2].
    + eapply wp_bind; [eapply text_step; [exact HG | reflexivity | exact HK | apply ext_refl | exact HG | exact Hp]|].
      intros i st' E HG' HT; cbn beta in *. apply wp_ret; [exact HG'|]. split; [exact HT | apply HT].
  - intros c st' E HG' HT Hx. eapply Hna; eassumption.
  - intros c st' x E HG' (Hi1 & Hi2 & HKi & HLi) Hx Hnx. unfold reads, set_cur; cbn [v_store v_cur v_stack v_ents v_last].
    split; [exists j; apply HKi; eapply K_ext; eassumption|]. split; [reflexivity|]. split; [reflexivity|]. split; [reflexivity|].
    intros w ks. destruct (HLi j t ts w ks) as [H1 H2]; [eapply K_ext; eassumption|].
    pose proof (LF_ext_iff O allowed T (v_store v) st' (v_cur v) [] (Txt s :: w) ks HG E (K_inr O allowed _ _ _ _ _ HK)) as Hiff.
    split; [intros Q; apply Hiff, H1, Q|]. intros _ Hsep Q. apply H2; [apply tsep_exok; exact Hsep | apply Hiff, Q].
Qed.

(** ** Start tag *)
Definition ADs (st : store) (id i : pid) (atts : list attr) : Prop :=
  inr_ st id /\ inr_ st i /\ (forall j t ts m, KM st m j t ts id -> KM st m j t ts i) /\
  (forall j t ts m a w ks, KM st m j t ts id -> (LF st i a w ks <-> LF st id (atts ++ a) w ks)).

Lemma atts_ok m atts : forall st j t ts id, G st -> KM st m j t ts id ->
  wp (fun fu => atts_deriv O fu id atts) st (fun r st' =>
    match r with
    | inl i => inr_ st' i /\ KM st' m j t ts i /\ (forall w ks, LF st' i [] w ks <-> LF st id atts w ks)
    | inr e => forall w ks, ~ LF st id atts w ks
    end).
Proof.
  induction atts as [|x atts IH]; intros st j t ts id HG HK; cbn [atts_deriv].
  - apply wp_ret; [exact HG|]. split; [eapply K_inr; exact HK|]. split; [exact HK|]. intros; tauto.
  - eapply wp_bind; [eapply att_ok; [exact allowed_push | exact HK | apply ext_refl | exact HG | intros ? ? HH; discriminate HH]|].
    intros [i mm] st1 E1 HG1 [(Hid & Hi & HKi & HLi) _]; cbn [fst snd] in *.
    destruct (inr_nth _ _ Hi) as [y Hy]. eapply wp_pattb; [exact Hy|].
    assert (HK1 : KM st1 m j t ts id) by (eapply K_ext; eassumption).
    assert (Hstep : forall a w ks, LF st1 i a w ks <-> LF st id (x :: a) w ks).
    { intros a w ks. rewrite (HLi j t ts m) by exact HK1. apply (LF_ext_iff O allowed T); [exact HG | exact E1 | eapply K_inr; exact HK]. }
    destruct (is_not_allowed y) eqn:Ey.
    + destruct y; try discriminate Ey. apply wp_ret; [exact HG1|]. intros w ks HL. apply Hstep in HL. exact (NA_absurd _ _ _ _ _ Hy HL).
    + eapply wp_mono; [apply (IH st1 j t ts i HG1 (HKi _ _ _ _ HK1))|].
      intros [i'|e] st2 E2 HG2 H2; cbn beta in *.
      * destruct H2 as (Hi' & HKi' & HLi'). split; [exact Hi'|]. split; [exact HKi'|].
        intros w ks. rewrite HLi'. apply Hstep.
      * intros w ks HL. apply (H2 w ks). apply Hstep. exact HL.
Qed.

(** After the start tag of an element [nm] with attributes [atts]. *)
Lemma open_wp v evt nm atts j t ts p : G (v_store v) -> K (v_store v) j t ts (v_cur v) ->
  nth_error (pats (v_store v)) (v_cur v) = Some p ->
  current_element (v_stack v) = Ok (inl nm) -> current_attributes (v_stack v) = Ok (inl atts) ->
  wp (fun m => close_element_start O m (v_stack v) evt p) (v_store v) (fun r st' =>
    match r with
    | inl i => inr_ st' i /\ (exists j', K st' j' (tq nm) (t :: ts) i) /\
               nth_error (pats st') i <> Some PNotAllowed /\
               (forall w k ks, LF st' i [] w (k :: ks) <-> LF (v_store v) (v_cur v) [] (Elm nm atts w :: k) ks)
    | inr e => forall w k ks, ~ LF (v_store v) (v_cur v) [] (Elm nm atts w :: k) ks
    end).
Proof.
  intros HG HK Hp Hnm Hat. unfold close_element_start. rewrite Hnm, Hat.
  eapply wp_bind; [apply (wp_lift O allowed T (Ok (inl nm)) _ (fun a _ => a = inl nm)); [exact HG | discriminate | discriminate | intros a Ha; injection Ha; auto]|].
  intros r0 st0 E0 HG0 ->.
  assert (Hp0 : nth_error (pats st0) (v_cur v) = Some p) by (eapply ext_nth; eassumption).
  eapply wp_bind; [eapply open_ok; [exact allowed_push | intros nc Hnc; exact (Htq nc nm Hnc) | exact HK | exact E0 | exact HG0 | exact Hp0]|].
  intros d st1 E1 HG1 [[j1 HK1] (Hid & Hi & HOD)]; cbn beta in *.
  pose proof (ext_trans _ _ _ E0 E1) as E01.
  destruct (inr_nth _ _ Hi) as [x Hx]. eapply wp_pattb; [exact Hx|].
  assert (Hstep : forall a w k ks, LF st1 d a w (k :: ks) <-> LF (v_store v) (v_cur v) [] (Elm nm a w :: k) ks).
  { intros a w k ks. rewrite HOD. rewrite <- (LF_ext_iff O allowed T (v_store v) st1); [|exact HG | exact E01 | eapply K_inr; exact HK].
    split; [intros (k' & ks' & Eq & HL); injection Eq as <- <-; exact HL | intros HL; eauto]. }
  destruct (is_not_allowed x) eqn:Ex.
  - destruct x; try discriminate Ex. apply wp_ret; [exact HG1|]. intros w k ks HL. apply Hstep in HL. exact (NA_absurd _ _ _ _ _ Hx HL).
  - eapply wp_bind; [apply (wp_lift O allowed T (Ok (inl atts)) _ (fun a _ => a = inl atts)); [exact HG1 | discriminate | discriminate | intros a Ha; injection Ha; auto]|].
    intros r1 st2 E2 HG2 ->.
    eapply wp_bind; [eapply (atts_ok false atts st2); [exact HG2 | eapply K_ext; eassumption]|].
    intros [q|e] st3 E3 HG3 H3; cbn beta in *.
    + destruct H3 as (Hq & HKq & HLq). destruct (inr_nth _ _ Hq) as [y Hy]. eapply wp_pattb; [exact Hy|].
      assert (Hstep2 : forall w k ks, LF st3 q [] w (k :: ks) <-> LF (v_store v) (v_cur v) [] (Elm nm atts w :: k) ks).
      { intros w k ks. rewrite HLq. rewrite (LF_ext_iff O allowed T st1 st2) by assumption. apply Hstep. }
      destruct (is_not_allowed y) eqn:Ey.
      * destruct y; try discriminate Ey. apply wp_ret; [exact HG3|]. intros w k ks HL. apply Hstep2 in HL. exact (NA_absurd _ _ _ _ _ Hy HL).
      * eapply wp_bind; [eapply close_ok; [exact allowed_push | exact HKq | apply ext_refl | exact HG3]|].
        intros c st4 E4 HG4 (Hq4 & Hc & HKc & HLc); cbn beta in *. destruct (inr_nth _ _ Hc) as [z Hz]. eapply wp_pattb; [exact Hz|].
        assert (HKq4 : KM st4 false j1 (tq nm) (t :: ts) q) by (eapply K_ext; eassumption).
        assert (Hstep3 : forall w k ks, LF st4 c [] w (k :: ks) <-> LF (v_store v) (v_cur v) [] (Elm nm atts w :: k) ks).
        { intros w k ks. rewrite (HLc _ _ _ _ _ _ HKq4). rewrite (LF_ext_iff O allowed T st3 st4) by assumption. apply Hstep2. }
        destruct (is_not_allowed z) eqn:Ez.
        -- destruct z; try discriminate Ez. apply wp_ret; [exact HG4|]. intros w k ks HL. apply Hstep3 in HL. exact (NA_absurd _ _ _ _ _ Hz HL).
        -- apply wp_ret; [exact HG4|]. split; [exact Hc|]. split; [exists j1; eapply HKc; exact HKq4|]. split; [|exact Hstep3].
           rewrite Hz; intros EE; injection EE as ->; discriminate Ez.
    + apply wp_ret; [exact HG3|]. intros w k ks HL. apply (H3 w (k :: ks)).
      apply (LF_ext O st1 st2); [exact E2|]. apply Hstep. exact HL.
Qed.

Lemma end_wp st c p j t t' ts : G st -> K st j t (t' :: ts) c -> nth_error (pats st) c = Some p ->
  wp (fun m => end_element O m false p) st (fun i st' => inr_ st' i /\ K st' j t' ts i /\
    forall k ks, LF st' i [] k ks <-> LF st c [] [] (k :: ks)).
Proof.
  intros HG HK Hp. unfold end_element.
  eapply wp_bind; [apply (wp_ret O allowed T p st (fun a _ => a = p)); [exact HG | reflexivity]|].
  intros q st0 E0 HG0 ->.
  eapply wp_mono; [eapply end_ok; [exact allowed_push | exact HK | exact E0 | exact HG0 | eapply ext_nth; eassumption]|].
  intros i st1 E1 HG1 (Hc & Hi & HKi & HLi). pose proof (ext_trans _ _ _ E0 E1) as E01.
  split; [exact Hi|]. split; [eapply HKi; eapply K_ext; eassumption|].
  intros k ks. rewrite (HLi j t t' ts) by (eapply K_ext; eassumption).
  apply (LF_ext_iff O allowed T); [exact HG | exact E01 | eapply K_inr; exact HK].
Qed.

(** ** Reading the start tag tokens *)
Lemma add_atts fuel a : forall v e stk, v_stack v = e :: stk -> nth_error (pats (v_store v)) (v_cur v) <> None ->
  run O fuel v (map att_token a) =
  Ok (Validator (v_store v) (v_cur v) (v_last v)
       (ElState (e_prefix e) (e_local e) (e_ns e ++ ns_decls a) (e_atts e ++ plain_atts a) :: stk) (v_ents v), None).
Proof.
  induction a as [|[[p l] x] a IH]; intros v e stk Hv Hc; cbn [map run att_token ns_decls plain_atts filter].
  - destruct v as [st cur last sk en]; cbn in Hv; subst sk. destruct e; cbn; rewrite !app_nil_r; reflexivity.
  - unfold validate, validate_step, bind, patt. destruct (nth_error (pats (v_store v)) (v_cur v)) eqn:En; [|contradiction].
    cbn [ret rbind]. unfold stack_effect, add_attr. rewrite Hv. cbn [rbind].
    assert (Hn : (let '(p0, l0, _) := (p, l, x) in str_eqb p0 xmlns || str_eqb p0 [] && str_eqb l0 xmlns) =
                 str_eqb p xmlns || str_eqb p [] && str_eqb l xmlns) by reflexivity.
    unfold is_nsdecl.
    destruct (str_eqb p xmlns) eqn:E1; cbn [orb negb].
    + cbn [v_store v_cur v_last v_stack v_ents].
      erewrite IH; cbn [v_store v_cur v_last v_stack v_ents]; [|reflexivity | rewrite En; discriminate].
      cbn [e_prefix e_local e_ns e_atts]. rewrite <- app_assoc. reflexivity.
    + destruct (str_eqb p [] && str_eqb l xmlns) eqn:E2; cbn [orb negb].
      * cbn [v_store v_cur v_last v_stack v_ents].
        erewrite IH; cbn [v_store v_cur v_last v_stack v_ents]; [|reflexivity | rewrite En; discriminate].
        cbn [e_prefix e_local e_ns e_atts]. rewrite <- app_assoc. apply andb_true_iff in E2; destruct E2 as [E2 _].
        apply str_eqb_eq in E2; subst p. reflexivity.
      * cbn [v_store v_cur v_last v_stack v_ents].
        erewrite IH; cbn [v_store v_cur v_last v_stack v_ents]; [|reflexivity | rewrite En; discriminate].
        cbn [e_prefix e_local e_ns e_atts]. rewrite <- app_assoc. reflexivity.
Qed.

Lemma start_tokens fuel p l a v : nth_error (pats (v_store v)) (v_cur v) <> None ->
  run O fuel v (TElementStart p l :: map att_token a) =
  Ok (Validator (v_store v) (v_cur v) (v_last v) (el_of p l a :: v_stack v) (v_ents v), None).
Proof.
  intros Hc. cbn [run]. unfold validate, validate_step, bind, patt.
  destruct (nth_error (pats (v_store v)) (v_cur v)) eqn:En; [|contradiction]. cbn [ret rbind stack_effect].
  erewrite add_atts; cbn [v_store v_cur v_last v_stack v_ents]; [|reflexivity | rewrite En; discriminate].
  reflexivity.
Qed.

Lemma misc_run fuel tk v : nth_error (pats (v_store v)) (v_cur v) <> None ->
  (match tk with TComment _ | TProcessingInstruction _ => True | _ => False end) -> run O fuel v [tk] = Ok (v, None).
Proof.
  intros Hc Ht. cbn [run]. unfold validate, validate_step, bind, patt.
  destruct (nth_error (pats (v_store v)) (v_cur v)) eqn:En; [|contradiction].
  destruct v; destruct tk; try contradiction; reflexivity.
Qed.

(** ** Content *)
Lemma sep_app3 t a b w : tsep t ((a ++ b) ++ w) -> tsep t (b ++ w).
Proof. rewrite <- app_assoc. apply tsep_app_r. Qed.

Definition node_spec (x : xnode) : Prop := forall v j t ts ws,
  G (v_store v) -> K (v_store v) j t ts (v_cur v) -> v_last v = false ->
  cview (v_ents v) (v_stack v) x = Some ws ->
  wpv (fun m => run O m v (tokens_of x)) (v_store v) (reads v ts t ws (elems_of x ++ v_stack v)) (fun _ => refuses v t ws).

Lemma K_cur_some st j t ts c : K st j t ts c -> nth_error (pats st) c <> None.
Proof. intros H; apply (K_inr O allowed) in H. apply nth_error_Some; exact H. Qed.

Lemma nodes_spec xs : Forall node_spec xs -> forall v j t ts ws,
  G (v_store v) -> K (v_store v) j t ts (v_cur v) -> v_last v = false ->
  cviews (v_ents v) (v_stack v) xs = Some ws ->
  wpv (fun m => run O m v (flat_map tokens_of xs)) (v_store v) (reads v ts t ws (elems_list xs ++ v_stack v)) (fun _ => refuses v t ws).
Proof.
  induction 1 as [|x xs Hx Hxs IH]; intros v j t ts ws HG HK Hl Hv; cbn [flat_map cviews elems_list] in *.
  - injection Hv as <-. apply wpv_nil; [exact HG|]. split; [eauto|]. repeat (split; [reflexivity || exact Hl|]). cbn. intros; tauto.
  - destruct (cview (v_ents v) (v_stack v) x) as [w1|] eqn:E1; [|discriminate].
    destruct (cviews (v_ents v) (elems_of x ++ v_stack v) xs) as [w2|] eqn:E2; [|discriminate].
    injection Hv as <-.
    eapply (wpv_app v _ _ (reads v ts t w1 (elems_of x ++ v_stack v))).
    + eapply wpv_mono; [eapply Hx; eassumption | intros v' _ _ H; exact H |].
      cbn. intros e Hr Hok w ks Hs. apply items_ok_app in Hok; destruct Hok as [Hok1 Hok2]. rewrite <- app_assoc in *. apply Hr; [exact Hok1 | exact Hs].
    + intros v' E' HG' ((j' & HK') & Hst & Hen & Hla & HL).
      eapply wpv_mono; [eapply (IH v' j' t ts w2); try eassumption; rewrite Hen, Hst; exact E2 | |].
      * intros v'' E'' HG'' ((j'' & HK'') & Hst'' & Hen'' & Hla'' & HL'').
        split; [eauto|]. split; [rewrite Hst'', Hst, app_assoc; reflexivity|]. split; [congruence|]. split; [exact Hla''|].
        intros w ks. destruct (HL'' w ks) as [S1 C1]. destruct (HL (w2 ++ w) ks) as [S2 C2]. rewrite <- app_assoc. split; [auto|].
        intros Hok Hs HL2. apply items_ok_app in Hok; destruct Hok as [Hok1 Hok2].
        apply C1; [exact Hok2 | eapply tsep_app_r; exact Hs | apply C2; [exact Hok1 | exact Hs | exact HL2]].
      * cbn. intros e Hr Hok w ks Hs HL2. apply items_ok_app in Hok; destruct Hok as [Hok1 Hok2]. rewrite <- app_assoc in *. apply HL in HL2; [|exact Hok1 | exact Hs].
        apply (Hr Hok2 w ks); [eapply tsep_app_r; exact Hs | exact HL2].
Qed.

Lemma node_ok x : node_spec x.
Proof.
  induction x as [start raw|s|s|s|p l a sc kids IHk] using xnode_ind'; intros v j t ts ws HG HK Hl Hv.
  - cbn in Hv. destruct (text_data (v_ents v) start raw) as [s|] eqn:Ed; [|discriminate]. injection Hv as <-.
    eapply text_wpv; [exact HG | exact HK | exact Hl | left; eauto].
  - cbn in Hv; injection Hv as <-. eapply text_wpv; [exact HG | exact HK | exact Hl | right; reflexivity].
  - cbn in Hv; injection Hv as <-. eexists 0, _; split.
    + intros m _. apply misc_run; [eapply K_cur_some; exact HK | exact I].
    + cbn. split; [apply ext_refl|]. split; [exact HG|]. split; [eauto|]. repeat (split; [reflexivity || exact Hl|]). cbn; intros; tauto.
  - cbn in Hv; injection Hv as <-. eexists 0, _; split.
    + intros m _. apply misc_run; [eapply K_cur_some; exact HK | exact I].
    + cbn. split; [apply ext_refl|]. split; [exact HG|]. split; [eauto|]. repeat (split; [reflexivity || exact Hl|]). cbn; intros; tauto.
  - rewrite cview_elem in Hv. cbv zeta in Hv.
    destruct (try_lookup_ns (el_of p l a :: v_stack v) p) as [u|] eqn:Eu; [|discriminate].
    destruct (resolve_attrs (el_of p l a :: v_stack v) (plain_atts a)) as [atts|] eqn:Ea; [|discriminate].
    destruct (cviews (v_ents v) (el_of p l a :: v_stack v) kids) as [ks|] eqn:Ek; [|discriminate].
    injection Hv as <-.
    assert (Hitem : items_ok tq [Elm (QName u l) atts ks] -> tsep (tq (QName u l)) ks /\ items_ok tq ks).
    { cbn [items_ok]. intros [Hok _]. exact (proj1 (item_ok_elem tq _ _ _) Hok). }
    cbn [tokens_of]. rewrite elems_of_elem.
    set (v1 := Validator (v_store v) (v_cur v) (v_last v) (el_of p l a :: v_stack v) (v_ents v)).
    assert (Hce : current_element (v_stack v1) = Ok (inl (QName u l))).
    { cbn [v_stack v1 current_element]. replace (e_prefix (el_of p l a)) with p by reflexivity. rewrite Eu. reflexivity. }
    assert (Hca : current_attributes (v_stack v1) = Ok (inl atts)).
    { cbn [v_stack v1 current_attributes]. replace (e_atts (el_of p l a)) with (plain_atts a) by reflexivity. rewrite Ea. reflexivity. }
    destruct (inr_nth _ _ (K_inr O allowed _ _ _ _ _ HK)) as [pt Hpt].
    change (TElementStart p l :: map att_token a ++ ?r) with ((TElementStart p l :: map att_token a) ++ r).
    rewrite app_comm_cons.
    eapply (wpv_app v _ _ (fun v' => v' = v1)).
    { eexists 0, _; split; [intros m _; apply start_tokens; eapply K_cur_some; exact HK|]. cbn. split; [apply ext_refl|]. auto. }
    intros v' _ _ ->.
    pose proof (open_wp v1) as Hopen.
    destruct (sc && is_nil kids) eqn:Esc.
    + apply andb_true_iff in Esc; destruct Esc as [_ Enil]. destruct kids; [|discriminate Enil].
      cbn [cviews] in Ek; injection Ek as <-. cbn [elems_list app].
      apply wpv_one.
      eapply (wpv_validate v1 _ (fun c st' => (exists j', K st' j' t ts c) /\
                forall w k, LF st' c [] w k <-> LF (v_store v) (v_cur v) [] (Elm (QName u l) atts [] :: w) k)).
      * reflexivity.
      * exact I.
      * unfold validate_step. eapply wp_pattb; [exact Hpt|].
        eapply wp_bind; [eapply (open_wp v1); eassumption|].
        intros [i|e] st' E HG' H; cbn beta in *.
        -- destruct H as (Hi & (j' & HKi) & Hna & HLi). destruct (inr_nth _ _ Hi) as [x Hx]. eapply wp_pattb; [exact Hx|].
           replace (v_last v1) with false by (symmetry; exact Hl).
           eapply wp_bind; [eapply end_wp; [exact HG' | exact HKi | exact Hx]|].
           intros i' st'' E'' HG'' (Hi' & HKi' & HLi'); cbn beta in *. apply wp_ret; [exact HG''|].
           split; [|exact Hi']. split; [eauto|]. intros w k. rewrite HLi'. apply HLi.
        -- apply wp_ret; [exact HG'|]. cbn. intros _ w ks Hs HL. apply (H [] w ks). exact HL.
      * cbn. intros c st' E HG' [_ HL] Hx _ w ks Hs HL2. apply HL in HL2. exact (NA_absurd _ _ _ _ _ Hx HL2).
      * intros c st' x E HG' [HKc HL] Hx Hnx. unfold reads, set_cur; cbn. split; [exact HKc|]. repeat (split; [reflexivity|]).
        intros w ks. split; [apply HL | intros _ _; apply HL].
    + eapply (wpv_cons v1 _ _ (fun v2 => (exists j', K (v_store v2) j' (tq (QName u l)) (t :: ts) (v_cur v2)) /\ v_stack v2 = v_stack v1 /\
           v_ents v2 = v_ents v /\ v_last v2 = false /\
           forall w k ks, LF (v_store v2) (v_cur v2) [] w (k :: ks) <-> LF (v_store v) (v_cur v) [] (Elm (QName u l) atts w :: k) ks)).
      { apply wpv_one.
        eapply (wpv_validate v1 _ (fun c st' => (exists j', K st' j' (tq (QName u l)) (t :: ts) c) /\ nth_error (pats st') c <> Some PNotAllowed /\
                forall w k ks, LF st' c [] w (k :: ks) <-> LF (v_store v) (v_cur v) [] (Elm (QName u l) atts w :: k) ks)).
        - reflexivity.
        - exact I.
        - unfold validate_step. eapply wp_pattb; [exact Hpt|].
          eapply wp_bind; [eapply (open_wp v1); eassumption|].
          intros [i|e] st' E HG' H; cbn beta in *.
          + destruct H as (Hi & HKi & Hna & HLi). apply wp_ret; [exact HG'|]. split; [|exact Hi]. auto.
          + apply wp_ret; [exact HG'|]. cbn. intros _ w0 ks0 Hs HL. apply (H ks w0 ks0). exact HL.
        - cbn. intros c st' E HG' (_ & Hna & _) Hx. congruence.
        - intros c st' x E HG' (HKc & _ & HL) Hx Hnx. cbn. auto. }
      intros v2 E2 HG2 ((j2 & HK2) & Hst2 & Hen2 & Hla2 & HL2).
      eapply (wpv_app v2 _ _ (reads v2 (t :: ts) (tq (QName u l)) ks (elems_list kids ++ v_stack v2))).
      { eapply wpv_mono; [eapply (nodes_spec kids IHk v2 j2 (tq (QName u l)) (t :: ts) ks); try eassumption; rewrite Hen2, Hst2; exact Ek | intros v' _ _ H; exact H |].
        cbn. intros _ Hr Hok w0 ks0 Hs HL. destruct (Hitem Hok) as [Hsep Hkids].
        apply (Hr Hkids [] (w0 :: ks0)); rewrite app_nil_r; [exact Hsep|]. apply HL2. exact HL. }
      intros v3 E3 HG3 ((j3 & HK3) & Hst3 & Hen3 & Hla3 & HL3).
      destruct (inr_nth _ _ (K_inr O allowed _ _ _ _ _ HK3)) as [p3 Hp3].
      assert (Hall : forall w ks0, (LF (v_store v3) (v_cur v3) [] [] (w :: ks0) -> LF (v_store v) (v_cur v) [] (Elm (QName u l) atts ks :: w) ks0) /\
        (items_ok tq [Elm (QName u l) atts ks] -> LF (v_store v) (v_cur v) [] (Elm (QName u l) atts ks :: w) ks0 -> LF (v_store v3) (v_cur v3) [] [] (w :: ks0))).
      { intros w ks0. destruct (HL3 [] (w :: ks0)) as [S3 C3]. rewrite app_nil_r in S3, C3. split.
        - intros Q. apply HL2, S3, Q.
        - intros Hok Q. destruct (Hitem Hok) as [Hsep Hkids]. apply C3; [exact Hkids | exact Hsep | apply HL2; exact Q]. }
      apply wpv_one.
      eapply (wpv_validate v3 _ (fun c st' => K st' j3 t ts c /\
                forall w k, (LF st' c [] w k -> LF (v_store v) (v_cur v) [] (Elm (QName u l) atts ks :: w) k) /\
                  (items_ok tq [Elm (QName u l) atts ks] -> LF (v_store v) (v_cur v) [] (Elm (QName u l) atts ks :: w) k -> LF st' c [] w k))).
      * reflexivity.
      * exact I.
      * unfold validate_step. eapply wp_pattb; [exact Hp3|]. rewrite Hla3.
        eapply wp_bind; [eapply end_wp; [exact HG3 | exact HK3 | exact Hp3]|].
        intros i' st'' E'' HG'' (Hi' & HKi' & HLi'); cbn beta in *. apply wp_ret; [exact HG''|].
        split; [|exact Hi']. split; [exact HKi'|]. intros w k. rewrite HLi'. apply Hall.
      * cbn. intros c st' E HG' [_ HL] Hx Hok w ks0 Hs HL4. apply HL in HL4; [|exact Hok]. exact (NA_absurd _ _ _ _ _ Hx HL4).
      * intros c st' x E HG' [HKc HL] Hx Hnx. unfold reads, set_cur; cbn. split; [eauto|].
        split; [rewrite Hst3, Hst2; cbn; rewrite <- app_assoc; reflexivity|]. split; [congruence|]. split; [reflexivity|].
        intros w ks0. split; [apply HL | intros Hok _; apply HL; exact Hok].
Qed.
End Run.
