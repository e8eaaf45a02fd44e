(** * CompactReadMain: the recursive rules of the compact parser read the texts of CompactText.v. *)
From Coq Require Import String.
From Verif Require Import Base Datatype Syntax CompactParse CompactText CompactTotal CompactLex CompactRead CompactReadPat.
#[local] Existing Instance strict_mode.

Lemma nohd_gap (P : N -> bool) g t : Gap g -> (forall c, gapc c = true -> P c = false) -> nohd P t -> nohd P (g ++ t).
Proof.
  intros Hg HP Ht. destruct g as [|c g]; [exact Ht|]. destruct (gap_head _ Hg ltac:(discriminate)) as (c' & g' & [= <- <-] & Hc).
  cbn. apply HP, Hc.
Qed.
Lemma gapc_nc c : gapc c = true -> nc_char c = false.
Proof. intros H. destruct (nc_char c) eqn:E; [|reflexivity]. apply nc_char_gapc in E. congruence. Qed.
Lemma gapc_neq c d : gapc c = true -> gapc d = false -> (d =? c)%N = false.
Proof. intros H1 H2. apply N.eqb_neq. intros ->. congruence. Qed.
Lemma gap1_nc g t : Gap g -> g <> [] -> nohd nc_char (g ++ t).
Proof.
  intros Hg Hn. destruct (gap_head _ Hg Hn) as (c & g' & -> & Hc). cbn. apply gapc_nc, Hc.
Qed.
Lemma quotec_nc c : quotec c = true -> nc_char c = false.
Proof. unfold quotec. rewrite orb_true_iff, !N.eqb_eq. intros [-> | ->]; reflexivity. Qed.
Lemma Lit_nc g l t r : Gap g -> Lit l t -> nohd nc_char (g ++ t ++ r).
Proof. intros Hg Hl. apply nohd_gap; [exact Hg | apply gapc_nc|]. eapply starts_nohd; [eapply Lit_starts; exact Hl | apply quotec_nc]. Qed.
Lemma Lit_nogap l t r : Lit l t -> nohd gapc (t ++ r).
Proof. intros Hl. eapply starts_nohd; [eapply Lit_starts; exact Hl | apply quotec_gapc]. Qed.
Lemma idstart_quote c : idstart c = true -> quotec c = false.
Proof.
  intros H. unfold idstart in H. destruct (quotec c) eqn:E; [|reflexivity]. unfold quotec in E. rewrite orb_true_iff, !N.eqb_eq in E.
  destruct E as [-> | ->]; discriminate H.
Qed.
Lemma Nc_nogap a s r : Nc a s -> nohd gapc (s ++ r).
Proof. intros H. eapply starts_nohd; [eapply Nc_starts; exact H | apply ncstart_gapc]. Qed.
Lemma F_nil bad r : Follow bad r -> Follow [] r.
Proof. apply F_weaken. intros x []. Qed.
Ltac weak H := eapply F_weaken; [|exact H]; apply incl_b; reflexivity.

Section Step.
Variable n : nat.
Variable R : rules.
Hypothesis HP : forall p s r, Pat p s -> PF r -> List.length (s ++ r) < n -> r_pattern R (s ++ r) = POk p r.
Hypothesis HG : forall x s r, GItem x s -> PF r -> List.length (s ++ r) < n -> r_grammar R (s ++ r) = POk x r.
Hypothesis HI : forall x s r, IItem x s -> PF r -> List.length (s ++ r) < n -> r_include R (s ++ r) = POk x r.
Hypothesis HG0 : forall r, 0 < n -> r_grammar R (lit "}" ++ r) = PErr.
Hypothesis HI0 : forall r, 0 < n -> r_include R (lit "}" ++ r) = PErr.

Lemma named_ok c k nc g1 s g2 g3 p t g4 r : Gap1 g1 -> Nc nc s -> Gap g2 -> Gap g3 -> Pat p t -> Gap g4 ->
  List.length (g1 ++ s ++ g2 ++ lit "{" ++ g3 ++ t ++ g4 ++ lit "}" ++ r) < S n ->
  named_pattern (S n) R k c (k ++ g1 ++ s ++ g2 ++ lit "{" ++ g3 ++ t ++ g4 ++ lit "}" ++ r) = POk (c nc p) r.
Proof.
  intros G1 Hn G2 G3 Hp G4 Hl. unfold named_pattern. ok ltac:(apply ptag_app). ok ltac:(apply sc1_gap; [exact G1 | eapply Nc_nogap; exact Hn]).
  ok ltac:(apply nc_ok; [exact Hn | apply F_str; [exact G2 | reflexivity] | lens]).
  ok ltac:(apply sc0_gap; [exact G2 | exact eq_refl]). ok ltac:(apply ptag_app). ok ltac:(apply sc0_gap; [exact G3 | eapply Pat_nogap; exact Hp]).
  ok ltac:(apply cut_ok, HP; [exact Hp | apply PF_str; [exact G4 | reflexivity] | lens]).
  ok ltac:(apply sc0_gap; [exact G4 | exact eq_refl]). ok ltac:(apply cut_ok, ptag_app). reflexivity.
Qed.
Lemma braced_ok c k g1 g2 p s g3 r : k <> [] -> Gap g1 -> Gap g2 -> Pat p s -> Gap g3 ->
  List.length (k ++ g1 ++ lit "{" ++ g2 ++ s ++ g3 ++ lit "}" ++ r) < S n ->
  braced_pattern R k c (k ++ g1 ++ lit "{" ++ g2 ++ s ++ g3 ++ lit "}" ++ r) = POk (c p) r.
Proof.
  intros Hk G1 G2 Hp G3 Hl. unfold braced_pattern. ok ltac:(apply ptag_app). ok ltac:(apply sc0_gap; [exact G1 | exact eq_refl]).
  ok ltac:(apply ptag_app). ok ltac:(apply sc0_gap; [exact G2 | eapply Pat_nogap; exact Hp]).
  ok ltac:(apply cut_ok, HP; [exact Hp | apply PF_str; [exact G3 | reflexivity] | lens]).
  ok ltac:(apply sc0_gap; [exact G3 | exact eq_refl]). ok ltac:(apply cut_ok, ptag_app). reflexivity.
Qed.

Lemma dt_after4 d s r : DtName d s -> prim (S n) R (s ++ r) = after4 (S n) R (s ++ r).
Proof.
  intros [| | p l Hp _ _]; [apply after4_hd; exact eq_refl .. |]. flat. apply after4_word; [apply word_forall, NCName_word, Hp | exact eq_refl |].
  intros _. split; exact eq_refl.
Qed.
Lemma dt_value_no d s r t : DtName d s -> nohd nc_char r -> sc0 r = POk tt t -> nohd quotec t -> datatype_value_pattern (s ++ r) = PErr.
Proof.
  intros Hd Hr H1 H2. unfold datatype_value_pattern. ok ltac:(apply opt_ok, dtname_ok; eassumption). ok ltac:(exact H1).
  apply bind_err, literal_no, H2.
Qed.
Lemma F_sc0_in bad r d : Follow bad r -> In d bad -> exists t, sc0 r = POk tt t /\ nohd (N.eqb d) t.
Proof.
  intros H Hd. apply F_sc0 in H as (t & H1 & H2 & _). exists t. split; [exact H1|]. eapply nohd_imp; [|exact H2].
  intros c E. apply among_in. apply N.eqb_eq in E. subst; exact Hd.
Qed.
Lemma F_sc0_quote bad r : Follow bad r -> In 34%N bad -> In 39%N bad -> exists t, sc0 r = POk tt t /\ nohd quotec t.
Proof.
  intros H H3 H4. apply F_sc0 in H as (t & H1 & H2 & _). exists t. split; [exact H1|]. eapply nohd_imp; [|exact H2].
  intros c E. apply among_in. unfold quotec in E. rewrite orb_true_iff, !N.eqb_eq in E. destruct E as [-> | ->]; assumption.
Qed.
Lemma nonid_dtname x : nohd idstart x -> p_datatype_name x = PErr.
Proof.
  intros H. apply dtname_no.
  - apply ptag_hd. eapply nohd_imp; [|exact H]. intros c E. apply N.eqb_eq in E. subst; reflexivity.
  - apply ptag_hd. eapply nohd_imp; [|exact H]. intros c E. apply N.eqb_eq in E. subst; reflexivity.
  - apply cname_nohd. apply nogap_nostart in H. tauto.
Qed.
Lemma nonid_after4 x : nohd idstart x -> prim (S n) R x = after4 (S n) R x.
Proof.
  intros H. apply after4_hd. eapply nohd_imp; [|exact H]. intros c E. apply among_in in E. cbn in E.
  decompose [or] E; subst; try reflexivity; tauto.
Qed.
Lemma Lit_nonid l s r : Lit l s -> nohd idstart (s ++ r).
Proof.
  intros H. eapply starts_nohd; [eapply Lit_starts; exact H|]. intros c E. destruct (idstart c) eqn:E2; [|reflexivity].
  apply idstart_quote in E2. congruence.
Qed.

Lemma prim_ok p s r : Prim p s -> QF r -> List.length (s ++ r) < S n -> prim (S n) R (s ++ r) = POk p r.
Proof.
  intros Hp Hr Hl. destruct Hp as [c k nc g1 s g2 g3 p t g4 Hk G1 Hn G2 G3 Hp G4 | c k g1 g2 p s g3 Hk G1 G2 Hp G3 | g l s _ [[] | ->] Hs | d s g l t Hd Hg Hs | d s ps t Hd Ht
    | i Hi Hn | g i Hg Hi | p k Hk | g l s i t Hg Hs Hi | g1 g2 l s g3 G1 G2 Hs G3 | g1 p s g2 G1 Hp G2 | d s ps t g1 g2 e u []].
  - revert Hl. flat. intros Hl. assert (Hl' : List.length (g1 ++ s ++ g2 ++ lit "{" ++ g3 ++ t ++ g4 ++ lit "}" ++ r) < S n) by lens.
    unfold prim. destruct Hk.
    + apply por_ok. apply named_ok; assumption.
    + rewrite por_err by (apply bind_err; exact eq_refl). apply por_ok. apply named_ok; assumption.
  - revert Hl. flat. intros Hl. unfold prim.
    rewrite por_err by (apply bind_err; destruct Hk; exact eq_refl). rewrite por_err by (apply bind_err; destruct Hk; exact eq_refl). destruct Hk.
    + apply por_ok. apply braced_ok; try assumption; discriminate.
    + rewrite por_err by (apply bind_err; exact eq_refl). apply por_ok. apply braced_ok; try assumption; discriminate.
  - rewrite nonid_after4 by (eapply Lit_nonid; exact Hs). unfold after4. apply por_ok. unfold datatype_value_pattern.
    ok ltac:(apply opt_err, nonid_dtname; eapply Lit_nonid; exact Hs). ok ltac:(apply sc0_nil; eapply Lit_nogap; exact Hs).
    ok ltac:(apply lit_ok; [exact Hs | apply QF_litF; exact Hr]). reflexivity.
  - flat. rewrite (dt_after4 d) by exact Hd. unfold after4. apply por_ok. unfold datatype_value_pattern.
    ok ltac:(apply opt_ok, dtname_ok; [exact Hd | eapply Lit_nc; eassumption]). ok ltac:(apply sc0_gap; [exact Hg | eapply Lit_nogap; exact Hs]).
    ok ltac:(apply lit_ok; [exact Hs | apply QF_litF; exact Hr]). reflexivity.
  - revert Hl. flat. intros Hl. rewrite (dt_after4 d) by exact Hd. unfold after4. destruct Hr as [Hr _].
    assert (Hnc : nohd nc_char (t ++ r)).
    { destruct Ht as [|g1 g2 l u g3 G1 G2 Hu G3]; [eapply F_nc; exact Hr|]. flat. eapply F_nc. apply (F_str []); [exact G1 | reflexivity]. }
    rewrite por_err.
    2: { destruct Ht as [|g1 g2 l u g3 G1 G2 Hu G3].
         - destruct (F_sc0_quote _ _ Hr) as (t' & H1 & H2); [cbn; tauto | cbn; tauto |]. eapply dt_value_no; eassumption.
         - revert Hnc. flat. intros Hnc. eapply dt_value_no; [exact Hd | exact Hnc | apply sc0_gap; [exact G1 | exact eq_refl] | exact eq_refl]. }
    apply por_ok. unfold datatype_param_pattern. ok ltac:(apply dtname_ok; [exact Hd | exact Hnc]).
    ok ltac:(apply params_ok; [exact Ht | intros _; apply (F_sc0_in _ _ _ Hr); cbn; tauto | lens]).
    ok ltac:(apply opt_err; unfold except_pattern; eapply (sc0_tag_no _ r 45%N []); [exact Hr | cbn; tauto]). reflexivity.
  - destruct Hr as [Hr _]. pose proof (F_nc _ _ Hr) as Hnc. pose proof (F_hd _ _ 58%N Hr ltac:(cbn; tauto) eq_refl) as Hc.
    assert (Ha : prim (S n) R (i ++ r) = after4 (S n) R (i ++ r)).
    { destruct Hi as [[H1 H2] | (k & Hk & ->)]; [|apply after4_hd; exact eq_refl]. apply after4_word; [apply word_forall, NCName_word, H1 | exact Hnc |].
      intros H. exfalso. apply H2. cbn [map] in H. clear - H. incases H inkw. }
    assert (Hd : p_datatype_name (i ++ r) = PErr).
    { apply dtname_no; [| | apply cname_ident; assumption]; (destruct Hi as [[H1 H2] | (k & Hk & ->)]; [|reflexivity]); apply tag_no_word; try apply Hn; try exact Hnc; inkw. }
    pose proof (Ident_starts _ Hi) as Hs.
    rewrite Ha. unfold after4. rewrite por_err by (apply value_no; [exact Hd | eapply starts_nohd; [exact Hs | apply idstart_gapc] | eapply starts_nohd; [exact Hs | apply idstart_quote]]).
    rewrite por_err by (apply data_no; exact Hd). apply por_ok, pmap_ok, identifier_ok; assumption.
  - flat. destruct Hr as [Hr _]. rewrite prim_kw; [| cbn; tauto | apply gap1_nc; apply Hg | apply nohd_gap; [apply Hg | intros c Hc; apply gapc_neq; [exact Hc | reflexivity] |]].
    2: { eapply starts_nohd; [eapply Ident_starts; exact Hi|]. intros c. intros E. eapply (start_not [] c); [reflexivity | discriminate | reflexivity | rewrite E; reflexivity]. }
    unfold after7. apply por_ok. ok ltac:(apply ptag_app). ok ltac:(apply sc1_gap; [exact Hg | eapply starts_nohd; [eapply Ident_starts; exact Hi | apply idstart_gapc]]).
    ok ltac:(apply identifier_ok; [exact Hi | eapply F_nc; exact Hr]). reflexivity.
  - destruct Hr as [Hr _]. rewrite prim_kw; [| destruct Hk; cbn; tauto | eapply F_nc; exact Hr | eapply F_hd; [exact Hr | cbn; tauto | reflexivity]].
    unfold after7. destruct Hk; repeat (first [apply por_ok; unfold pmap; erewrite bind_ok by apply ptag_app; reflexivity | rewrite por_err by (apply bind_err; exact eq_refl)]).
  - flat. rewrite prim_kw; [| cbn; tauto | apply gap1_nc; apply Hg | apply nohd_gap; [apply Hg | intros c Hc; apply gapc_neq; [exact Hc | reflexivity] |]].
    2: { eapply starts_nohd; [eapply Lit_starts; exact Hs|]. intros c E. apply N.eqb_neq. intros <-. discriminate E. }
    unfold after7. do 4 rewrite por_err by (apply bind_err; exact eq_refl). apply por_ok. unfold external_pattern. ok ltac:(apply ptag_app).
    ok ltac:(apply sc1_gap; [exact Hg | eapply Lit_nogap; exact Hs]). ok ltac:(apply lit_ok; [exact Hs | eapply inherit_litF; [exact Hi | apply QF_litF, Hr]]).
    ok ltac:(apply inherit_ok; [exact Hi | eapply F_nil; apply Hr | apply Hr]). reflexivity.
  - revert Hl. flat. intros Hl. assert (HF : Follow (lit ":") (g1 ++ lit "{" ++ g2 ++ s ++ g3 ++ lit "}" ++ r)) by (apply F_str; [exact G1 | reflexivity]).
    rewrite prim_kw; [| cbn; tauto | eapply F_nc; exact HF | eapply F_hd; [exact HF | cbn; tauto | reflexivity]].
    unfold after7. do 5 rewrite por_err by (apply bind_err; exact eq_refl). apply por_ok. unfold grammar_pattern. ok ltac:(apply ptag_app).
    ok ltac:(apply sc0_gap; [exact G1 | exact eq_refl]). ok ltac:(apply ptag_app).
    rewrite (block GItem (r_grammar R) PF n idstart idstart_gapc HG GItem_starts (fun g y s t => gitem_next g y s t) l s g2 g3 (lit "}" ++ r)
      (fun l => pcut (ptag (lit "}")) ;* pret (SGrammar l))).
    + ok ltac:(apply cut_ok, ptag_app). reflexivity.
    + exact G2.
    + exact Hs.
    + exact G3.
    + exact eq_refl.
    + apply HG0. lens.
    + intros _. apply PF_str; [exact G3 | reflexivity].
    + lens.
  - revert Hl. flat. intros Hl. rewrite nonid_after4 by exact eq_refl. unfold after4.
    assert (Hd : p_datatype_name (lit "(" ++ g1 ++ s ++ g2 ++ lit ")" ++ r) = PErr) by (apply nonid_dtname; exact eq_refl).
    rewrite por_err by (apply value_no; [exact Hd | exact eq_refl | exact eq_refl]). rewrite por_err by (apply data_no; exact Hd).
    rewrite por_err by (apply pmap_err, identifier_no; exact eq_refl). do 6 rewrite por_err by (apply bind_err; exact eq_refl).
    unfold group_pattern. ok ltac:(apply ptag_app). ok ltac:(apply sc0_gap; [exact G1 | eapply Pat_nogap; exact Hp]).
    ok ltac:(apply HP; [exact Hp | apply PF_str; [exact G2 | reflexivity] | lens]).
    ok ltac:(apply sc0_gap; [exact G2 | exact eq_refl]). ok ltac:(apply ptag_app). reflexivity.
Qed.

(** ** Patterns *)
Lemma Prim_head p s r : Prim p s -> nohd gapc (s ++ r) /\ nohd (N.eqb 91) (s ++ r).
Proof.
  intros H. split; (eapply starts_nohd; [eapply Prim_starts; exact H|]); [apply primstart_gapc | apply primstart_bracket].
Qed.
Lemma PF_ops r : PF r -> Follow (lit ",&|?*+") r. Proof. intros [H _]. weak H. Qed.
Lemma PF_gt r : PF r -> Follow (lit ">") r. Proof. intros [H _]. weak H. Qed.
Lemma op_follow g1 c op x : Gap g1 -> InfixOp c op -> Follow (lit ">") (g1 ++ op ++ x) /\ QF (g1 ++ op ++ x).
Proof. intros Hg Ho. destruct Ho; (split; [apply F_str; [exact Hg | reflexivity] | apply QF_str; [exact Hg | reflexivity]]). Qed.
Lemma pattern_body_ok p s r : Pat p s -> PF r -> List.length (s ++ r) < S n -> pattern_body (S n) R (s ++ r) = POk p r.
Proof.
  intros Hp Hr Hl. destruct Hp as [i an p s f q o Ha Hp Hf Ho | i an p s f q o g1 g2 c op p2 t Ha Hp Hf Ho G1 Hop G2 Hp2 | i an d s ps t g1 g2 e u Ha Hd Ht G1 G1' G2 He];
    revert Hl; flat; intros Hl; unfold pattern_body; try (assert (G1'' : ps = None -> g1 <> []) by (intros X1; destruct (G1' X1) as [[] | H]; exact H); clear G1'; rename G1'' into G1').
  - pose proof (Prim_head p s (f ++ o ++ r) Hp) as [K1 K2].
    ok ltac:(apply maybe_ok; [exact Ha | exact K1 | exact K2 | exact Hl]).
    ok ltac:(apply prim_ok; [exact Hp | apply QF_follows; [exact Hf | eapply QF_post; [exact Ho | apply PF_QF, Hr]] | lens]).
    destruct (follows_ok (S n) f (o ++ r) Hf) as [fl Hfl]; [eapply Fol_post; [exact Ho | reflexivity.. | apply PF_gt, Hr] | lens |].
    ok ltac:(exact Hfl). destruct (post_run R p q o Ho (S (List.length (o ++ r))) r ltac:(lia)) as (m & Hm & ->).
    destruct m as [|m]; [lia|]. apply op_stop, PF_ops, Hr.
  - pose proof (Prim_head p s (f ++ o ++ g1 ++ op ++ g2 ++ t ++ r) Hp) as [K1 K2].
    destruct (op_follow g1 c op (g2 ++ t ++ r) G1 Hop) as [K3 K4].
    ok ltac:(apply maybe_ok; [exact Ha | exact K1 | exact K2 | exact Hl]).
    ok ltac:(apply prim_ok; [exact Hp | apply QF_follows; [exact Hf | eapply QF_post; [exact Ho | exact K4]] | lens]).
    destruct (follows_ok (S n) f (o ++ g1 ++ op ++ g2 ++ t ++ r) Hf) as [fl Hfl]; [eapply Fol_post; [exact Ho | reflexivity.. | exact K3] | lens |].
    ok ltac:(exact Hfl). destruct (post_run R p q o Ho (S (List.length (o ++ g1 ++ op ++ g2 ++ t ++ r))) (g1 ++ op ++ g2 ++ t ++ r) ltac:(lia)) as (m & Hm & ->).
    assert (0 < List.length op) by (destruct Hop; cbn; lia).
    destruct m as [|m]; [lia|]. rewrite (op_infix R m q c op g1 _ Hop G1). unfold infix.
    assert (Hi : (ptag op ;* sc0 ;* let* b := r_pattern R in pret (c q b)) (op ++ g2 ++ t ++ r) = POk (c q p2) r).
    { ok ltac:(apply ptag_app). ok ltac:(apply sc0_gap; [exact G2 | eapply Pat_nogap; exact Hp2]). pose proof (Prim_starts _ _ Hp) as Hps. apply starts_len in Hps.
      ok ltac:(apply HP; [exact Hp2 | exact Hr | lens]). reflexivity. }
    ok ltac:(exact Hi). destruct m as [|m]; [lens|]. apply op_stop, PF_ops, Hr.
  - pose proof (DtName_starts _ _ Hd) as Hds.
    ok ltac:(apply maybe_ok; [exact Ha | eapply starts_nohd; [exact Hds | apply idstart_gapc] | eapply starts_nohd; [exact Hds | apply idstart_bracket] | exact Hl]).
    assert (Hnc : nohd nc_char (t ++ g1 ++ lit "-" ++ g2 ++ u ++ r)).
    { destruct Ht as [|h1 h2 l v h3 H1 H2 Hv H3]; [apply (gap1_nc g1); [exact G1 | apply G1'; reflexivity]|]. flat. eapply F_nc. apply (F_str []); [exact H1 | reflexivity]. }
    assert (Hdp : datatype_param_pattern (S n) R (s ++ t ++ g1 ++ lit "-" ++ g2 ++ u ++ r) = POk (SData d ps (Some e)) r).
    { unfold datatype_param_pattern. ok ltac:(apply dtname_ok; [exact Hd | exact Hnc]).
      ok ltac:(apply params_ok; [exact Ht | intros _; eexists; split; [apply sc0_gap; [exact G1 | exact eq_refl] | exact eq_refl] | lens]).
      erewrite bind_ok; [reflexivity|]. apply opt_ok. ok ltac:(apply sc0_gap; [exact G1 | exact eq_refl]). unfold except_pattern. ok ltac:(apply ptag_app).
      ok ltac:(apply sc0_gap; [exact G2 | eapply Pat_nogap; exact He]). apply starts_len in Hds. apply HP; [exact He | exact Hr | lens]. }
    assert (Hprim : prim (S n) R (s ++ t ++ g1 ++ lit "-" ++ g2 ++ u ++ r) = POk (SData d ps (Some e)) r).
    { rewrite (dt_after4 d) by exact Hd. unfold after4. rewrite por_err; [apply por_ok, Hdp|].
      destruct Ht as [|h1 h2 l v h3 H1 H2 Hv H3].
      - eapply dt_value_no; [exact Hd | exact Hnc | apply (sc0_gap g1); [exact G1 | exact eq_refl] | exact eq_refl].
      - revert Hnc. flat. intros Hnc. eapply dt_value_no; [exact Hd | exact Hnc | apply sc0_gap; [exact H1 | exact eq_refl] | exact eq_refl]. }
    ok ltac:(exact Hprim). ok ltac:(apply follows_nil, PF_gt, Hr). apply op_stop, PF_ops, Hr.
Qed.

(** ** Grammar contents *)
Lemma method_ok h m r : Method h m -> assign_method (m ++ r) = POk h r.
Proof. intros []; reflexivity. Qed.
Lemma method_hd h m r : Method h m -> nohd gapc (m ++ r) /\ nohd nc_char (m ++ r) /\ nohd (N.eqb 58) (m ++ r) /\ nohd (N.eqb 91) (m ++ r) /\ nohd (N.eqb 123) (m ++ r).
Proof. intros []; repeat split. Qed.
Lemma method_no x : nohd (among (lit "=|&")) x -> assign_method x = PErr.
Proof.
  intros H. assert (Hd : forall d k, In d (lit "=|&") -> ptag (d :: k) x = PErr).
  { intros d k Hd. apply ptag_hd. eapply nohd_imp; [|exact H]. intros c E. apply among_in. apply N.eqb_eq in E. subst; exact Hd. }
  unfold assign_method. rewrite por_err by (apply bind_err, Hd; cbn; tauto). rewrite por_err by (apply bind_err, Hd; cbn; tauto).
  apply bind_err, Hd; cbn; tauto.
Qed.
Lemma assignment_ok {A} (nm : parser str) (c : str -> method -> spat -> A) x w y h m g1 g2 p s r :
  nm (w ++ g1 ++ m ++ g2 ++ s ++ r) = POk y (g1 ++ m ++ g2 ++ s ++ r) -> x = c y h p -> w <> [] ->
  Gap g1 -> Method h m -> Gap g2 -> Pat p s -> PF r -> List.length (w ++ g1 ++ m ++ g2 ++ s ++ r) < S n ->
  assignment R nm c (w ++ g1 ++ m ++ g2 ++ s ++ r) = POk x r.
Proof.
  intros Hn -> Hw G1 Hm G2 Hp Hr Hl. unfold assignment. ok ltac:(exact Hn). ok ltac:(apply sc0_gap; [exact G1 | apply (method_hd h), Hm]).
  ok ltac:(apply method_ok; exact Hm). ok ltac:(apply sc0_gap; [exact G2 | eapply Pat_nogap; exact Hp]).
  assert (0 < List.length w) by (destruct w; [congruence | cbn; lia]).
  ok ltac:(apply cut_ok, HP; [exact Hp | exact Hr | lens]). reflexivity.
Qed.
(** [start] does not read a longer word, nor a word which no operator follows *)
Lemma start_no {A} (c : str -> method -> spat -> A) w r : Forall (fun c => nc_char c = true) w -> nohd nc_char r ->
  (w = lit "start" -> exists t, sc0 r = POk tt t /\ assign_method t = PErr) -> assignment R start_name c (w ++ r) = PErr.
Proof.
  intros Hw Hr Hx. unfold assignment, start_name. destruct (ptag_word (lit "start") w r (word_forall _ (NCName_word _ (kw_word (lit "start") ltac:(inkw)))) Hr) as [(w' & E & H) | [_ H]].
  2: { apply bind_err, pmap_err, H. }
  erewrite bind_ok by (unfold pmap; erewrite bind_ok by exact H; reflexivity). destruct w' as [|d w'].
  - rewrite app_nil_r in E. destruct (Hx E) as (t & H1 & H2). cbn [app]. ok ltac:(exact H1). apply bind_err, H2.
  - subst w. apply Forall_app in Hw as [_ Hw]. inversion Hw as [|? ? Hc _]; subst. ok ltac:(apply sc0_nil; cbn; apply nc_char_gapc; exact Hc).
    apply bind_err, method_no. cbn [app nohd]. apply nc_char_among; [exact Hc | reflexivity].
Qed.
Lemma start_no_ident {A} (c : str -> method -> spat -> A) i r : Ident i -> nohd nc_char r -> assignment R start_name c (i ++ r) = PErr.
Proof.
  intros [[H1 H2] | (k & Hk & ->)] Hr; [|apply bind_err, pmap_err; exact eq_refl]. apply start_no; [apply word_forall, NCName_word, H1 | exact Hr |].
  intros ->. exfalso. apply H2. inkw.
Qed.
Lemma kw_no {A} (c : str -> method -> spat -> A) k r : In k Keywords -> nohd nc_char r -> assignment R identifier c (k ++ r) = PErr.
Proof. intros Hk Hr. apply bind_err, identifier_kw; assumption. Qed.
Lemma ident_no {A} (c : str -> method -> spat -> A) i r t : Ident i -> nohd nc_char r -> sc0 r = POk tt t -> assign_method t = PErr ->
  assignment R identifier c (i ++ r) = PErr.
Proof. intros Hi Hr H1 H2. unfold assignment. ok ltac:(apply identifier_ok; eassumption). ok ltac:(exact H1). apply bind_err, H2. Qed.
Lemma div_ok {A B} (X : A -> str -> Prop) (item : parser A) (P : N -> bool) (c : list A -> B) l g1 g2 s g3 r :
  (forall c, P c = true -> gapc c = false) -> (forall x s r, X x s -> PF r -> List.length (s ++ r) < n -> item (s ++ r) = POk x r) ->
  (forall x s, X x s -> starts P s) -> (forall g y s t, Gap1 g -> X y s -> PF (g ++ s ++ t)) -> item (lit "}" ++ r) = PErr ->
  Gap g1 -> Gap g2 -> Seq X l s -> Gap g3 -> List.length (g1 ++ lit "{" ++ g2 ++ s ++ g3 ++ lit "}" ++ r) < S n ->
  (sc0 ;* ptag (lit "{") ;* sc0 ;* let* l := psep0 sc1 item in sc0 ;* pcut (ptag (lit "}")) ;* pret (c l))
    (g1 ++ lit "{" ++ g2 ++ s ++ g3 ++ lit "}" ++ r) = POk (c l) r.
Proof.
  intros H1 H2 H3 H4 H5 G1 G2 Hs G3 Hl. ok ltac:(apply sc0_gap; [exact G1 | exact eq_refl]). ok ltac:(apply ptag_app).
  rewrite (block X item PF n P H1 H2 H3 H4 l s g2 g3 (lit "}" ++ r) (fun l => pcut (ptag (lit "}")) ;* pret (c l))).
  - ok ltac:(apply cut_ok, ptag_app). reflexivity.
  - exact G2.
  - exact Hs.
  - exact G3.
  - exact eq_refl.
  - exact H5.
  - intros _. apply PF_str; [exact G3 | reflexivity].
  - lens.
Qed.
(** an annotation element is not an assignment, a [div] or an [include] *)
Lemma include_word w r : Forall (fun c => nc_char c = true) w -> nohd nc_char r ->
  (w = lit "include" -> sc1 r = PErr \/ exists t, sc1 r = POk tt t /\ nohd quotec t) -> include_ R (w ++ r) = PErr.
Proof.
  intros Hw Hr Hx. unfold include_. destruct (ptag_word (lit "include") w r (word_forall _ (NCName_word _ (kw_word (lit "include") ltac:(inkw)))) Hr) as [(w' & E & H) | [_ H]]; [|apply bind_err; exact H].
  ok ltac:(exact H). destruct w' as [|d w'].
  - rewrite app_nil_r in E. cbn [app]. destruct (Hx E) as [H1 | (t & H1 & H2)]; [apply bind_err, H1|]. ok ltac:(exact H1). apply bind_err, literal_no, H2.
  - subst w. apply Forall_app in Hw as [_ Hw]. inversion Hw as [|? ? Hc _]; subst. apply bind_err, sc1_stop. cbn. apply nc_char_gapc, Hc.
Qed.
Lemma gap_sc1 g t : Gap g -> nohd gapc t -> sc1 (g ++ t) = PErr \/ sc1 (g ++ t) = POk tt t.
Proof.
  intros Hg Ht. destruct g as [|c g]; [left; apply sc1_stop, Ht|]. right. apply sc1_gap; [split; [exact Hg | discriminate] | exact Ht].
Qed.
Definition not_item (x : str) : Prop :=
  assignment R start_name GDefine x = PErr /\ assignment R identifier GDefine x = PErr /\ div_content (r_grammar R) GDiv x = PErr /\ include_ R x = PErr.
Lemma not_item_word w r t : NCName w -> nohd nc_char r -> sc0 r = POk tt t -> assign_method t = PErr ->
  (w = lit "div" -> nohd (N.eqb 123) t) -> (w = lit "include" -> sc1 r = PErr \/ exists t, sc1 r = POk tt t /\ nohd quotec t) -> not_item (w ++ r).
Proof.
  intros Hw Hr Ht Hm Hd Hi. pose proof (word_forall _ (NCName_word _ Hw)) as Hf. repeat split.
  - apply start_no; [exact Hf | exact Hr | intros _; eauto].
  - destruct (in_dec str_eq_dec w Keywords) as [Hk | Hk]; [apply kw_no; assumption|]. eapply ident_no; [left; split; assumption | exact Hr | exact Ht | exact Hm].
  - unfold div_content. apply braced_word; [inkw | exact Hf | exact Hr |]. intros E. exists t. auto.
  - apply include_word; assumption.
Qed.
Lemma not_item_quoted k r t : In k Keywords -> nohd nc_char r -> sc0 r = POk tt t -> assign_method t = PErr -> not_item ((92%N :: k) ++ r).
Proof.
  intros Hk Hr Ht Hm. split; [exact eq_refl|]. split; [|split; exact eq_refl].
  eapply ident_no; [right; eauto | exact Hr | exact Ht | exact Hm].
Qed.
Lemma not_item_elem a s r : AnnElem a s -> not_item (s ++ r).
Proof.
  intros [nm s' g1 g2 atts t1 g3 kids t2 g4 Hn G1 _ _ _ _ _ _]. flat. set (x := g2 ++ t1 ++ g3 ++ t2 ++ g4 ++ lit "]" ++ r).
  assert (HF : nohd nc_char (g1 ++ lit "[" ++ x)) by (eapply F_nc; apply (F_str []); [exact G1 | reflexivity]).
  assert (Hs : sc0 (g1 ++ lit "[" ++ x) = POk tt (lit "[" ++ x)) by (apply sc0_gap; [exact G1 | exact eq_refl]).
  assert (H1 : sc1 (g1 ++ lit "[" ++ x) = PErr \/ exists t, sc1 (g1 ++ lit "[" ++ x) = POk tt t /\ nohd quotec t).
  { destruct (gap_sc1 g1 (lit "[" ++ x) G1) as [H | H]; [exact eq_refl | left; exact H | right; exists (lit "[" ++ x); split; [exact H | exact eq_refl]]. }
  destruct Hn as [i s0 [j [[Hj Hj'] | (k & Hk & ->)] | j Hj] | p l Hp Hl].
  - eapply not_item_word; [exact Hj | exact HF | exact Hs | exact eq_refl | intros _; exact eq_refl | intros _; exact H1].
  - eapply not_item_quoted; [exact Hk | exact HF | exact Hs | exact eq_refl].
  - eapply not_item_word; [apply kw_word; exact Hj | exact HF | exact Hs | exact eq_refl | intros _; exact eq_refl | intros _; exact H1].
  - flat. eapply not_item_word; [exact Hp | exact eq_refl | apply sc0_nil; exact eq_refl | exact eq_refl | intros _; exact eq_refl | intros _; left; apply sc1_stop; exact eq_refl].
Qed.
Lemma QF_of_PF_litF r : PF r -> LitF r. Proof. intros H. apply QF_litF, PF_QF, H. Qed.
Lemma start_name_ok r : start_name (lit "start" ++ r) = POk (lit "start") r.
Proof. unfold start_name, pmap. erewrite bind_ok by apply ptag_app. reflexivity. Qed.
Lemma grammar_body_ok x s r : GItem x s -> PF r -> List.length (s ++ r) < S n -> grammar_body (S n) R (s ++ r) = POk x r.
Proof.
  intros Hx Hr Hl. destruct Hx as [h m g1 g2 p t G1 Hm G2 Hp | i h m g1 g2 p t Hi G1 Hm G2 Hp | g1 g2 l t g3 G1 G2 Ht G3 | g l t i u Hg Ht Hi | g l t i u g1 g2 ov v g3 Hg Ht Hi G1 G2 Hv G3 | a t Ha];
    revert Hl; flat; intros Hl; unfold grammar_body.
  - apply por_ok. eapply assignment_ok; [apply start_name_ok | reflexivity | discriminate | eassumption..].
  - pose proof (Method_F h m g1 (g2 ++ t ++ r) Hm G1) as HF. rewrite por_err by (apply start_no_ident; [exact Hi | eapply F_nc; exact HF]).
    apply por_ok. eapply assignment_ok; [apply identifier_ok; [exact Hi | eapply F_nc; exact HF] | reflexivity | | eassumption..].
    intros ->. destruct (Ident_starts _ Hi) as (? & ? & [=] & _).
  - assert (HF : Follow [] (g1 ++ lit "{" ++ g2 ++ t ++ g3 ++ lit "}" ++ r)) by (apply F_str; [exact G1 | reflexivity]).
    rewrite por_err by (apply bind_err, pmap_err; exact eq_refl).
    rewrite por_err by (apply kw_no; [inkw | eapply F_nc; exact HF]). apply por_ok. unfold div_content. ok ltac:(apply ptag_app).
    apply (div_ok GItem (r_grammar R) idstart GDiv); try assumption; [apply idstart_gapc | apply GItem_starts | intros; eapply gitem_next; eassumption | apply HG0; lens | lens].
  - rewrite por_err by (apply bind_err, pmap_err; exact eq_refl).
    rewrite por_err by (apply kw_no; [inkw | apply gap1_nc; apply Hg]). rewrite por_err by (apply bind_err; exact eq_refl). apply por_ok.
    unfold include_. ok ltac:(apply ptag_app). ok ltac:(apply sc1_gap; [exact Hg | eapply Lit_nogap; exact Ht]).
    ok ltac:(apply lit_ok; [exact Ht | eapply inherit_litF; [exact Hi | apply QF_of_PF_litF, Hr]]). destruct Hr as [Hr1 Hr2].
    ok ltac:(apply inherit_ok; [exact Hi | eapply F_nil; exact Hr1 | exact Hr2]).
    ok ltac:(apply opt_err; unfold overrides; eapply (sc0_tag_no _ r 123%N []); [exact Hr1 | cbn; tauto]). reflexivity.
  - rewrite por_err by (apply bind_err, pmap_err; exact eq_refl).
    rewrite por_err by (apply kw_no; [inkw | apply gap1_nc; apply Hg]). rewrite por_err by (apply bind_err; exact eq_refl). apply por_ok.
    unfold include_. ok ltac:(apply ptag_app). ok ltac:(apply sc1_gap; [exact Hg | eapply Lit_nogap; exact Ht]).
    ok ltac:(apply lit_ok; [exact Ht | eapply inherit_litF; [exact Hi | apply LitF_str; [exact G1 | reflexivity]]]).
    ok ltac:(apply inherit_ok; [exact Hi | apply F_str; [exact G1 | reflexivity] | eapply (inh_str []); [exact G1 | reflexivity]]).
    assert (Hov : overrides R (g1 ++ lit "{" ++ g2 ++ v ++ g3 ++ lit "}" ++ r) = POk ov r).
    { apply (div_ok IItem (r_include R) itemstart (fun l => l)); try assumption; [apply itemstart_gapc | apply IItem_starts | intros; eapply iitem_next; eassumption | apply HI0; lens | lens]. }
    ok ltac:(apply opt_ok, Hov). reflexivity.
  - destruct (not_item_elem a t r Ha) as (N1 & N2 & N3 & N4). rewrite !por_err by assumption. apply pmap_ok, elem_ok; assumption.
Qed.
Lemma idstart_of c d : (d =? c)%N = true -> nc_start_char d = true -> idstart c = true.
Proof. intros E H. apply N.eqb_eq in E. subst. unfold idstart. rewrite H. reflexivity. Qed.
Lemma hd_no x d k : nohd idstart x -> nc_start_char d = true -> ptag (d :: k) x = PErr.
Proof. intros H Hd. apply ptag_hd. eapply nohd_imp; [|exact H]. intros c E. eapply idstart_of; eassumption. Qed.
Lemma grammar_body_no x : nohd idstart x -> grammar_body (S n) R x = PErr.
Proof.
  intros H. unfold grammar_body. rewrite por_err by (apply bind_err, pmap_err, hd_no; [exact H | reflexivity]).
  rewrite por_err by (apply bind_err; apply nogap_nostart in H as [H1 H2]; apply identifier_no; assumption).
  rewrite por_err by (apply bind_err, hd_no; [exact H | reflexivity]). rewrite por_err by (apply bind_err, hd_no; [exact H | reflexivity]).
  apply pmap_err, elem_no, H.
Qed.

(** ** Include contents *)
Lemma elem_no_name nm s r t : Name nm s -> nohd nc_char r -> nohd (N.eqb 58) r -> sc0 r = POk tt t -> nohd (N.eqb 91) t -> annotation_element (S n) (s ++ r) = PErr.
Proof.
  intros Hn H1 H2 H3 H4. cbn [annotation_element]. ok ltac:(apply name_ok; eassumption). ok ltac:(exact H3). apply bind_err, ptag_hd, H4.
Qed.
Lemma include_body_ok x s r : IItem x s -> PF r -> List.length (s ++ r) < S n -> include_body (S n) R (s ++ r) = POk x r.
Proof.
  intros Hx Hr Hl. destruct Hx as [i an h m g1 g2 p t Ha G1 Hm G2 Hp | i an y h m g1 g2 p t Ha Hy G1 Hm G2 Hp | i an g1 g2 l t g3 Ha G1 G2 Ht G3 | i an a t Ha He];
    revert Hl; flat; intros Hl; unfold include_body.
  - pose proof (Method_F h m g1 (g2 ++ t ++ r) Hm G1) as HF.
    ok ltac:(apply maybe_ok; [exact Ha | exact eq_refl | exact eq_refl | exact Hl]).
    rewrite por_err.
    2: { apply pmap_err. eapply (elem_no_name (NmId (IKKw (lit "start")))); [constructor; constructor; inkw | eapply F_nc; exact HF | eapply F_hd; [exact HF | cbn; tauto | reflexivity] | apply sc0_gap; [exact G1 | apply (method_hd h), Hm] | apply (method_hd h), Hm]. }
    rewrite por_err by (apply kw_no; [inkw | eapply F_nc; exact HF]). apply por_ok.
    eapply assignment_ok; [apply start_name_ok | reflexivity | discriminate | try eassumption..]. lens.
  - pose proof (Method_F h m g1 (g2 ++ t ++ r) Hm G1) as HF. pose proof (Ident_starts _ Hy) as Hs.
    ok ltac:(apply maybe_ok; [exact Ha | eapply starts_nohd; [exact Hs | apply idstart_gapc] | eapply starts_nohd; [exact Hs | apply idstart_bracket] | exact Hl]).
    rewrite por_err.
    2: { apply pmap_err. eapply (elem_no_name (NmId (IKId y))); [constructor; constructor; exact Hy | eapply F_nc; exact HF | eapply F_hd; [exact HF | cbn; tauto | reflexivity] | apply sc0_gap; [exact G1 | apply (method_hd h), Hm] | apply (method_hd h), Hm]. }
    apply por_ok. eapply assignment_ok; [apply identifier_ok; [exact Hy | eapply F_nc; exact HF] | reflexivity | | try eassumption..]; [|lens].
    intros ->. destruct Hs as (? & ? & [=] & _).
  - assert (HF : Follow (lit ":") (g1 ++ lit "{" ++ g2 ++ t ++ g3 ++ lit "}" ++ r)) by (apply F_str; [exact G1 | reflexivity]).
    ok ltac:(apply maybe_ok; [exact Ha | exact eq_refl | exact eq_refl | exact Hl]).
    rewrite por_err.
    2: { apply pmap_err. eapply (elem_no_name (NmId (IKKw (lit "div")))); [constructor; constructor; inkw | eapply F_nc; exact HF | eapply F_hd; [exact HF | cbn; tauto | reflexivity] | apply sc0_gap; [exact G1 | exact eq_refl] | exact eq_refl]. }
    rewrite por_err by (apply kw_no; [inkw | eapply F_nc; exact HF]). rewrite por_err by (apply bind_err, pmap_err; exact eq_refl).
    unfold div_content. ok ltac:(apply ptag_app).
    apply (div_ok IItem (r_include R) itemstart IDiv); try assumption; [apply itemstart_gapc | apply IItem_starts | intros; eapply iitem_next; eassumption | apply HI0; lens | lens].
  - pose proof (AnnElem_starts _ _ He) as Hs.
    ok ltac:(apply maybe_ok; [exact Ha | eapply starts_nohd; [exact Hs | apply idstart_gapc] | eapply starts_nohd; [exact Hs | apply idstart_bracket] | exact Hl]).
    apply por_ok, pmap_ok, elem_ok; [exact He | lens].
Qed.
Lemma include_body_no r : include_body (S n) R (lit "}" ++ r) = PErr.
Proof.
  unfold include_body. ok ltac:(apply opt_err; exact eq_refl). rewrite por_err by (apply pmap_err, elem_no; exact eq_refl).
  rewrite por_err by (apply bind_err, identifier_no; exact eq_refl). reflexivity.
Qed.
End Step.

(** ** All budgets *)
Lemma parsers_ok n :
  (forall p s r, Pat p s -> PF r -> List.length (s ++ r) < n -> pattern n (s ++ r) = POk p r) /\
  (forall x s r, GItem x s -> PF r -> List.length (s ++ r) < n -> grammar_content n (s ++ r) = POk x r) /\
  (forall x s r, IItem x s -> PF r -> List.length (s ++ r) < n -> include_content n (s ++ r) = POk x r).
Proof.
  induction n as [|n (H1 & H2 & H3)]; [repeat split; intros; lia|].
  assert (H4 : forall r, 0 < n -> r_grammar (parsers n) (lit "}" ++ r) = PErr).
  { intros r Hn. destruct n as [|n]; [lia|]. apply grammar_body_no. exact eq_refl. }
  assert (H5 : forall r, 0 < n -> r_include (parsers n) (lit "}" ++ r) = PErr).
  { intros r Hn. destruct n as [|n]; [lia|]. apply include_body_no. }
  repeat split; intros; unfold pattern, grammar_content, include_content; cbn [parsers r_pattern r_grammar r_include].
  - apply pattern_body_ok; assumption.
  - apply grammar_body_ok; assumption.
  - apply include_body_ok; assumption.
Qed.
