(** * CompactReadPat: patterns, grammars and schemas. *)
From Coq Require Import String.
From Verif Require Import Base Datatype Syntax CompactParse CompactText CompactTotal CompactLex CompactRead.
#[local] Existing Instance strict_mode.

Definition badprim : list N := lit ":~{-" ++ [34; 39]%N.
Definition badpat : list N := lit ":~{-,&|?*+>" ++ [34; 39]%N.
Definition QF (r : str) : Prop := Follow badprim r /\ opt_inherit r = POk None r.
Definition PF (r : str) : Prop := Follow badpat r /\ opt_inherit r = POk None r.
Lemma PF_QF r : PF r -> QF r.
Proof. intros [H1 H2]. split; [|exact H2]. eapply F_weaken; [|exact H1]. apply incl_b; reflexivity. Qed.

Lemma inherit_hd t : nohd (N.eqb 105) t -> inherit t = PErr.
Proof. intros H. unfold inherit. apply bind_err. apply ptag_hd. exact H. Qed.
Lemma inh_none g t : Gap g -> nohd gapc t -> inherit t = PErr -> opt_inherit (g ++ t) = POk None (g ++ t).
Proof.
  intros Hg Ht Hi. unfold opt_inherit. apply opt_err. destruct g as [|c g]; [apply bind_err, sc1_stop, Ht|].
  erewrite bind_ok; [exact Hi|]. apply sc1_gap; [split; [exact Hg | discriminate] | exact Ht].
Qed.
Lemma ok_head_nohd bad k t (P : N -> bool) : ok_head bad k = true -> (forall c, P c = true -> nc_char c = true) -> nohd P (k ++ t).
Proof.
  intros Hk HP. destruct k as [|c k]; [discriminate|]. cbn in Hk |- *. apply andb_prop in Hk as [_ Hk]. apply negb_true_iff in Hk.
  destruct (P c) eqn:E; [|reflexivity]. apply HP in E. congruence.
Qed.
Lemma ok_head_gap bad k t : ok_head bad k = true -> nohd gapc (k ++ t).
Proof.
  intros Hk. destruct k as [|c k]; [discriminate|]. cbn in Hk |- *. apply andb_prop in Hk as [Hk _]. apply andb_prop in Hk as [Hk _].
  apply negb_true_iff in Hk. exact Hk.
Qed.
Lemma inh_str bad g k t : Gap g -> ok_head bad k = true -> opt_inherit (g ++ k ++ t) = POk None (g ++ k ++ t).
Proof.
  intros Hg Hk. apply inh_none; [exact Hg | eapply ok_head_gap; exact Hk|]. apply inherit_hd. eapply ok_head_nohd; [exact Hk|].
  intros c E. apply N.eqb_eq in E. subst; reflexivity.
Qed.
Lemma QF_str g k t : Gap g -> ok_head badprim k = true -> QF (g ++ k ++ t).
Proof. intros Hg Hk. split; [apply F_str; assumption | eapply inh_str; eassumption]. Qed.
Lemma PF_str g k t : Gap g -> ok_head badpat k = true -> PF (g ++ k ++ t).
Proof. intros Hg Hk. split; [apply F_str; assumption | eapply inh_str; eassumption]. Qed.
Lemma PF_end g : Gap g -> PF g.
Proof. intros Hg. split; [apply F_end; exact Hg|]. rewrite <- (app_nil_r g). apply inh_none; [exact Hg | exact I | reflexivity]. Qed.

(** chains of follow annotations and postfix operators *)
Lemma Fol_follows bad f r : Follows f -> ok_head bad (lit ">>") = true -> Follow bad r -> Follow bad (f ++ r).
Proof. intros [|g1 g2 a s t G1 G2 Ha Hf] Hb Hr; [exact Hr|]. flat. apply F_str; assumption. Qed.
Lemma Fol_post bad p q o r : Postfixes p q o -> ok_head bad (lit "?") = true -> ok_head bad (lit "*") = true -> ok_head bad (lit "+") = true ->
  Follow bad r -> Follow bad (o ++ r).
Proof. intros [p'|p' q' c op g s Hop Hg Hs] H1 H2 H3 Hr; [exact Hr|]. flat. destruct Hop; apply F_str; assumption. Qed.
Lemma QF_follows f r : Follows f -> QF r -> QF (f ++ r).
Proof. intros [|g1 g2 a s t G1 G2 Ha Hf] Hr; [exact Hr|]. flat. apply QF_str; [assumption | reflexivity]. Qed.
Lemma QF_post p q o r : Postfixes p q o -> QF r -> QF (o ++ r).
Proof. intros [p'|p' q' c op g s Hop Hg Hs] Hr; [exact Hr|]. flat. destruct Hop; (apply QF_str; [assumption | reflexivity]). Qed.

(** ** What a construct begins with *)
Definition primstart (c : N) : bool := idstart c || among (lit "(" ++ [34; 39]%N) c.
Definition patstart (c : N) : bool := idstart c || among (lit "([" ++ [34; 39]%N) c.
Definition itemstart (c : N) : bool := idstart c || among (lit "[") c.
Lemma start_sub l l' c : forallb (among l') l = true -> (idstart c || among l c) = true -> (idstart c || among l' c) = true.
Proof.
  intros Hl H. apply orb_prop in H as [-> | H]; [reflexivity|]. rewrite orb_true_iff. right. apply among_in in H.
  rewrite forallb_forall in Hl. apply Hl; exact H.
Qed.
Lemma idstart_any l c : idstart c = true -> (idstart c || among l c) = true. Proof. intros ->; reflexivity. Qed.
Lemma nc_start_id c : nc_start_char c = true -> idstart c = true. Proof. unfold idstart. intros ->; reflexivity. Qed.
Lemma start_gapc l c : forallb (fun d => negb (gapc d)) l = true -> (idstart c || among l c) = true -> gapc c = false.
Proof. intros Hl H. eapply start_cases; [exact H | apply nc_char_gapc | reflexivity | exact Hl]. Qed.
Lemma start_not l c d : nc_char d = false -> d <> 92%N -> forallb (fun e => negb (N.eqb d e)) l = true -> (idstart c || among l c) = true -> (d =? c)%N = false.
Proof.
  intros Hd H92 Hl H. eapply (start_cases (N.eqb d)); [exact H | intros e He; apply nc_not; assumption | apply N.eqb_neq; exact H92 | exact Hl].
Qed.
Lemma primstart_gapc c : primstart c = true -> gapc c = false. Proof. apply start_gapc; reflexivity. Qed.
Lemma patstart_gapc c : patstart c = true -> gapc c = false. Proof. apply start_gapc; reflexivity. Qed.
Lemma itemstart_gapc c : itemstart c = true -> gapc c = false. Proof. apply start_gapc; reflexivity. Qed.
Lemma primstart_bracket c : primstart c = true -> (91 =? c)%N = false. Proof. apply start_not; [reflexivity | discriminate | reflexivity]. Qed.
Lemma kw_starts k : In k Keywords -> starts idstart k.
Proof. intros H. eapply starts_imp; [|apply NCName_starts, kw_word; exact H]. apply nc_start_id. Qed.
Ltac inkw := cbn; tauto.
Lemma NamedKw_in c k : NamedKw c k -> In k Keywords. Proof. intros []; inkw. Qed.
Lemma BracedKw_in c k : BracedKw c k -> In k Keywords. Proof. intros []; inkw. Qed.
Lemma PlainKw_in p k : PlainKw p k -> In k Keywords. Proof. intros []; inkw. Qed.
Lemma DtName_starts d s : DtName d s -> starts idstart s.
Proof.
  intros [| | p l Hp _ _]; [apply kw_starts; inkw .. |]. apply starts_app. eapply starts_imp; [apply nc_start_id | apply NCName_starts, Hp].
Qed.
Lemma Prim_starts p s : Prim p s -> starts primstart s.
Proof.
  assert (Hk : forall s, starts idstart s -> starts primstart s) by (intros t; apply starts_imp; intros c; apply idstart_any).
  intros Hp; destruct Hp as [c k nc g1 s g2 g3 p t g4 Hk' | c k g1 g2 p s g3 Hk' | g l s _ [[] | ->] Hl | d s g l t Hd | d s ps t Hd | i Hi _ | g i | p k Hk' | g l s i t | g1 g2 l s g3 | g1 p s g2 | d s ps t g1 g2 e u []].
  - apply starts_app, Hk, kw_starts. eapply NamedKw_in; exact Hk'.
  - apply starts_app, Hk, kw_starts. eapply BracedKw_in; exact Hk'.
  - eapply starts_imp; [|eapply Lit_starts; exact Hl]. intros c E. unfold quotec in E. rewrite orb_true_iff, !N.eqb_eq in E. destruct E as [-> | ->]; reflexivity.
  - apply starts_app, Hk. eapply DtName_starts; exact Hd.
  - apply starts_app, Hk. eapply DtName_starts; exact Hd.
  - apply Hk, Ident_starts, Hi.
  - apply starts_app, Hk, kw_starts. inkw.
  - apply Hk, kw_starts. eapply PlainKw_in; exact Hk'.
  - apply starts_app, Hk, kw_starts. inkw.
  - apply starts_app, Hk, kw_starts. inkw.
  - eexists 40%N, _. split; reflexivity.
Qed.
Lemma Pat_starts p s : Pat p s -> starts patstart s.
Proof.
  intros [i an p' s' f q o Ha Hp _ _ | i an p' s' f q o g1 g2 c op r t Ha Hp _ _ _ _ _ _ | i an d s' ps t g1 g2 e u Ha Hd _ _ _ _ _];
    (eapply Ann_starts; [exact Ha | | reflexivity]); apply starts_app.
  - eapply starts_imp; [|eapply Prim_starts; exact Hp]. intros c. apply start_sub. reflexivity.
  - eapply starts_imp; [|eapply Prim_starts; exact Hp]. intros x. apply start_sub. reflexivity.
  - eapply starts_imp; [|eapply DtName_starts; exact Hd]. intros x. apply idstart_any.
Qed.
Lemma Pat_nogap p s r : Pat p s -> nohd gapc (s ++ r).
Proof. intros H. eapply starts_nohd; [eapply Pat_starts; exact H | apply patstart_gapc]. Qed.
Lemma GItem_starts x s : GItem x s -> starts idstart s.
Proof.
  intros [h m g1 g2 p t | i h m g1 g2 p t Hi | g1 g2 l t g3 | g l t i u | g l t i u g1 g2 ov v g3 | a t Ha].
  - apply starts_app, kw_starts. inkw.
  - apply starts_app, Ident_starts, Hi.
  - apply starts_app, kw_starts. inkw.
  - apply starts_app, kw_starts. inkw.
  - apply starts_app, kw_starts. inkw.
  - eapply AnnElem_starts; exact Ha.
Qed.
Lemma IItem_starts x s : IItem x s -> starts itemstart s.
Proof.
  assert (Hk : forall s, starts idstart s -> starts itemstart s) by (intros t; apply starts_imp; intros c; apply idstart_any).
  intros [i an h m g1 g2 p t Ha | i an y h m g1 g2 p t Ha Hy | i an g1 g2 l t g3 Ha | i an a t Ha He]; (eapply Ann_starts; [exact Ha | | reflexivity]).
  - apply starts_app, Hk, kw_starts. inkw.
  - apply starts_app, Hk, Ident_starts, Hy.
  - apply starts_app, Hk, kw_starts. inkw.
  - apply Hk. eapply AnnElem_starts; exact He.
Qed.

(** ** [inherit] is not read in front of a grammar content *)
Lemma inh_word w r : Forall (fun c => nc_char c = true) w -> nohd nc_char r -> (w = lit "inherit" -> exists t, sc0 r = POk tt t /\ nohd (N.eqb 61) t) ->
  inherit (w ++ r) = PErr.
Proof.
  intros Hw Hr Hx. unfold inherit.
  destruct (ptag_word (lit "inherit") w r (word_forall _ (NCName_word _ (kw_word (lit "inherit") ltac:(inkw)))) Hr) as [(w' & E & H) | [_ H]]; [|apply bind_err; exact H].
  erewrite bind_ok by exact H. destruct w' as [|c w'].
  - rewrite app_nil_r in E. destruct (Hx E) as (t & H1 & H2). cbn [app]. erewrite bind_ok by exact H1. apply bind_err, ptag_hd, H2.
  - subst w. apply Forall_app in Hw as [_ Hw]. inversion Hw as [|? ? Hc _]; subst. erewrite bind_ok; [|apply sc0_nil; cbn [app nohd]; apply nc_char_gapc; exact Hc].
    apply bind_err, ptag_hd. cbn [app nohd]. apply nc_not; [exact Hc | reflexivity].
Qed.
Lemma inh_ident i r : Ident i -> nohd nc_char r -> inherit (i ++ r) = PErr.
Proof.
  intros [[H1 H2] | (k & Hk & ->)] Hr; [|apply inherit_hd; reflexivity]. apply inh_word; [apply word_forall, NCName_word, H1 | exact Hr |].
  intros ->. exfalso. apply H2. inkw.
Qed.
Lemma inh_elem a s r : AnnElem a s -> inherit (s ++ r) = PErr.
Proof.
  intros [n t g1 g2 atts t1 g3 kids t2 g4 Hn G1 _ _ _ _ _ _]. flat.
  assert (Hf : nohd nc_char (g1 ++ lit "[" ++ g2 ++ t1 ++ g3 ++ t2 ++ g4 ++ lit "]" ++ r)) by (eapply F_nc; apply (F_str []); [exact G1 | reflexivity]).
  destruct Hn as [i t [j Hj | j Hj] | p l Hp Hl].
  - apply inh_ident; assumption.
  - apply inh_word; [apply word_forall, NCName_word, kw_word, Hj | exact Hf |]. intros _. eexists. split; [apply sc0_gap; [exact G1 | exact eq_refl] | exact eq_refl].
  - flat. apply inh_word; [apply word_forall, NCName_word, Hp | exact eq_refl |]. intros _. eexists. split; [apply sc0_nil; exact eq_refl | exact eq_refl].
Qed.
Lemma start_cases' (P : N -> bool) l c : (idstart c || among l c) = true ->
  (forall c, nc_start_char c = true -> P c = false) -> P 92%N = false -> forallb (fun d => negb (P d)) l = true -> P c = false.
Proof.
  intros H H1 H2 H3. apply orb_prop in H as [H | H].
  - unfold idstart in H. apply orb_prop in H as [H | H]; [apply H1, H|]. apply N.eqb_eq in H. subst; exact H2.
  - apply among_in in H. rewrite forallb_forall in H3. specialize (H3 c H). apply negb_true_iff in H3. exact H3.
Qed.
Lemma nc_start_among c l : nc_start_char c = true -> forallb (fun d => negb (nc_start_char d)) l = true -> among l c = false.
Proof.
  intros H Hl. destruct (among l c) eqn:E; [|reflexivity]. apply among_in in E. rewrite forallb_forall in Hl. apply Hl in E.
  rewrite H in E. discriminate.
Qed.
Lemma item_bad c : itemstart c = true -> gapc c = false /\ among badpat c = false.
Proof.
  intros H. split; [apply itemstart_gapc; exact H|]. eapply (start_cases' (among badpat)); [exact H | | reflexivity | reflexivity].
  intros d Hd. apply nc_start_among; [exact Hd | reflexivity].
Qed.
Lemma PF_next g s t : Gap1 g -> starts itemstart s -> inherit (s ++ t) = PErr -> PF (g ++ s ++ t).
Proof.
  intros Hg Hs Hi. split; [eapply F_starts; [exact Hg | exact Hs | apply item_bad]|].
  apply inh_none; [apply Hg | eapply starts_nohd; [exact Hs | apply itemstart_gapc] | exact Hi].
Qed.
Lemma Method_F h m g t : Method h m -> Gap g -> Follow [58%N] (g ++ m ++ t).
Proof. intros [] Hg; (apply F_str; [exact Hg | reflexivity]). Qed.
Lemma gitem_next g y s t : Gap1 g -> GItem y s -> PF (g ++ s ++ t).
Proof.
  intros Hg Hy. apply PF_next; [exact Hg | eapply starts_imp; [|eapply GItem_starts; exact Hy]; intros c; apply idstart_any|].
  destruct Hy as [h m g1 g2 p u G1 Hm | i h m g1 g2 p u Hi G1 Hm | g1 g2 l u g3 | h l u i v | h l u i v g1 g2 ov w g3 | a u Ha]; flat.
  - apply inherit_hd; reflexivity.
  - apply inh_ident; [exact Hi | eapply F_nc, Method_F; eassumption].
  - apply inherit_hd; reflexivity.
  - reflexivity.
  - reflexivity.
  - eapply inh_elem; exact Ha.
Qed.
Lemma inh_ann i an s : Ann i an -> inherit s = PErr -> inherit (an ++ s) = PErr.
Proof. intros [|i' t g Hi _] Hs; [exact Hs|]. destruct Hi. apply inherit_hd; reflexivity. Qed.
Lemma iitem_next g y s t : Gap1 g -> IItem y s -> PF (g ++ s ++ t).
Proof.
  intros Hg Hy. apply PF_next; [exact Hg | eapply IItem_starts; exact Hy|].
  destruct Hy as [i an h m g1 g2 p u Ha G1 Hm | i an x h m g1 g2 p u Ha Hx G1 Hm | i an g1 g2 l u g3 Ha | i an a u Ha He]; flat;
    (eapply inh_ann; [exact Ha|]).
  - apply inherit_hd; reflexivity.
  - apply inh_ident; [exact Hx | eapply F_nc, Method_F; eassumption].
  - apply inherit_hd; reflexivity.
  - eapply inh_elem; exact He.
Qed.

(** ** Datatype names and parameters *)
Lemma tag_no_word k w r : In k Keywords -> nohd nc_char r -> ~ begins k w -> ptag k (w ++ r) = PErr.
Proof.
  intros Hk Hr Hb. destruct (ptag_word k w r (word_forall _ (NCName_word _ (kw_word _ Hk))) Hr) as [(w' & E & _) | [_ H]]; [|exact H].
  exfalso. apply Hb. exists w'. exact E.
Qed.
Lemma dtname_ok d s r : DtName d s -> nohd nc_char r -> p_datatype_name (s ++ r) = POk d r.
Proof.
  intros [| | p l Hp [N1 N2] Hl] Hr; unfold p_datatype_name.
  - apply por_ok. unfold pmap. erewrite bind_ok by apply ptag_app. reflexivity.
  - rewrite por_err by reflexivity. apply por_ok. unfold pmap. erewrite bind_ok by apply ptag_app. reflexivity.
  - flat. rewrite por_err by (apply pmap_err, tag_no_word; [inkw | exact eq_refl | exact N1]).
    rewrite por_err by (apply pmap_err, tag_no_word; [inkw | exact eq_refl | exact N2]).
    erewrite pmap_ok; [|apply cname_ok; assumption]. reflexivity.
Qed.
Lemma dtname_no x : ptag (lit "string") x = PErr -> ptag (lit "token") x = PErr -> cname x = PErr -> p_datatype_name x = PErr.
Proof. intros H1 H2 H3. unfold p_datatype_name. rewrite por_err by (apply pmap_err, H1). rewrite por_err by (apply pmap_err, H2). apply pmap_err, H3. Qed.
Lemma value_no x : p_datatype_name x = PErr -> nohd gapc x -> nohd quotec x -> datatype_value_pattern x = PErr.
Proof.
  intros H1 H2 H3. unfold datatype_value_pattern. erewrite bind_ok by (apply opt_err; exact H1). erewrite bind_ok by (apply sc0_nil; exact H2).
  apply bind_err, literal_no, H3.
Qed.
Lemma data_no n R x : p_datatype_name x = PErr -> datatype_param_pattern n R x = PErr.
Proof. intros H. unfold datatype_param_pattern. apply bind_err, H. Qed.
Lemma Param_starts x s : Param x s -> starts itemstart s.
Proof.
  intros [i an g0 n t g1 g2 l u Ha _ [[] | ->] Hn _ _ _]. cbn [app]. eapply Ann_starts; [exact Ha | | reflexivity]. apply starts_app.
  eapply starts_imp; [|eapply IdKw_starts; exact Hn]. intros c. apply idstart_any.
Qed.
Lemma idstart_bracket c : idstart c = true -> (91 =? c)%N = false.
Proof. intros H. apply (start_not [] c 91%N); [reflexivity | discriminate | reflexivity | rewrite H; reflexivity]. Qed.
Lemma param_ok n x s r : Param x s -> LitF r -> List.length (s ++ r) < n -> p_param n (s ++ r) = POk x r.
Proof.
  intros [i an g0 nm t g1 g2 l u Ha _ [[] | ->] Hn G1 G2 Hl] Hr Hlen. revert Hlen. cbn [app]. flat. intros Hlen. unfold p_param. pose proof (IdKw_starts _ _ Hn) as Hs.
  erewrite bind_ok; [|apply maybe_ok; [exact Ha | eapply starts_nohd; [exact Hs | apply idstart_gapc] | eapply starts_nohd; [exact Hs | apply idstart_bracket] | exact Hlen]].
  erewrite bind_ok; [|apply sc0_nil; eapply starts_nohd; [exact Hs | apply idstart_gapc]].
  erewrite bind_ok; [|apply idkw_ok; [exact Hn | eapply F_nc; apply (F_str []); [exact G1 | reflexivity]]].
  erewrite bind_ok; [|apply sc0_gap; [exact G1 | exact eq_refl]]. erewrite bind_ok; [|apply ptag_app].
  erewrite bind_ok; [|apply sc0_gap; [exact G2 | eapply starts_nohd; [eapply Lit_starts; exact Hl | apply quotec_gapc]]].
  erewrite bind_ok; [|apply lit_ok; eassumption]. reflexivity.
Qed.
Lemma item_tilde c : itemstart c = true -> gapc c = false /\ among (lit "~") c = false.
Proof. intros H. apply item_bad in H as [H1 H2]. split; [exact H1|]. destruct (among (lit "~") c) eqn:E; [|reflexivity].
  apply among_in in E. destruct E as [<- | []]. discriminate H2. Qed.
Lemma param_no n r : p_param n (lit "}" ++ r) = PErr.
Proof.
  unfold p_param. erewrite bind_ok; [|apply opt_err; reflexivity]. erewrite bind_ok; [|apply sc0_nil; exact eq_refl]. apply bind_err, idkw_no; reflexivity.
Qed.
Lemma params_ok n ps t r : Params ps t -> (ps = None -> exists t', sc0 r = POk tt t' /\ nohd (N.eqb 123) t') -> List.length (t ++ r) < n -> popt (params n) (t ++ r) = POk ps r.
Proof.
  intros [|g1 g2 l s g3 G1 G2 Hl G3] Hr Hn.
  - cbn [app]. apply opt_err. unfold params. destruct (Hr eq_refl) as (t' & H1 & H2). erewrite bind_ok by exact H1. apply bind_err, ptag_hd, H2.
  - revert Hn. flat. intros Hn. apply opt_ok. unfold params. erewrite bind_ok; [|apply sc0_gap; [exact G1 | exact eq_refl]]. erewrite bind_ok; [|apply ptag_app].
    rewrite (block Param (p_param n) LitF n itemstart itemstart_gapc (fun x s r => param_ok n x s r) Param_starts
      (fun g y s t Hg Hy => LitF_next _ _ _ _ Hg (Param_starts _ _ Hy) item_tilde) l s g2 g3 (lit "}" ++ r) (fun l => pcut (ptag (lit "}")) ;* pret l)).
    + erewrite bind_ok; [|apply cut_ok, ptag_app]. reflexivity.
    + exact G2.
    + exact Hl.
    + exact G3.
    + exact eq_refl.
    + apply param_no.
    + intros _. apply LitF_str; [exact G3 | reflexivity].
    + lens.
Qed.
Lemma inherit_ok i t r : Inherit i t -> Follow [] r -> opt_inherit r = POk None r -> opt_inherit (t ++ r) = POk i r.
Proof.
  intros [|g0 g1 g2 j s G0 G1 G2 Hi] Hf Hr; [exact Hr|]. flat. unfold opt_inherit. apply opt_ok.
  erewrite bind_ok; [|apply sc1_gap; [exact G0 | exact eq_refl]]. unfold inherit. erewrite bind_ok; [|apply ptag_app].
  erewrite bind_ok; [|apply sc0_gap; [exact G1 | exact eq_refl]]. erewrite bind_ok; [|apply ptag_app].
  erewrite bind_ok; [|apply sc0_gap; [exact G2 | eapply starts_nohd; [eapply IdKw_starts; exact Hi | apply idstart_gapc]]].
  apply idkw_ok; [exact Hi | eapply F_nc; exact Hf].
Qed.
Lemma QF_litF r : QF r -> LitF r.
Proof.
  intros [H _]. split; [eapply F_weaken; [|exact H]; apply incl_b; reflexivity|].
  pose proof (F_hd _ _ 34%N H ltac:(cbn; tauto) eq_refl) as H1. pose proof (F_hd _ _ 39%N H ltac:(cbn; tauto) eq_refl) as H2.
  destruct r as [|c r]; [exact I|]. cbn in *. unfold quotec. rewrite (N.eqb_sym c 34), (N.eqb_sym c 39), H1, H2. reflexivity.
Qed.
Lemma inherit_litF i t r : Inherit i t -> LitF r -> LitF (t ++ r).
Proof.
  intros [|g0 g1 g2 j s [G0 G0'] G1 G2 Hi] Hr; [exact Hr|]. flat. apply (LitF_next nc_char); [split; assumption | | ].
  - eexists 105%N, _. split; reflexivity.
  - intros c Hc. split; [apply nc_char_gapc; exact Hc | apply nc_char_among; [exact Hc | reflexivity]].
Qed.

(** ** The operator loop *)
Lemma op_infix R m a c op g x : InfixOp c op -> Gap g ->
  op_loop R (S m) a (g ++ op ++ x) = (let* p := infix R op c a in op_loop R m p) (op ++ x).
Proof.
  intros Ho Hg. cbn [op_loop]. rewrite sc0_gap by (try exact Hg; destruct Ho; exact eq_refl). destruct Ho; reflexivity.
Qed.
Lemma op_postfix R m a c op g x : PostfixOp c op -> Gap g -> op_loop R (S m) a (g ++ op ++ x) = op_loop R m (c a) x.
Proof.
  intros Ho Hg. cbn [op_loop]. rewrite sc0_gap by (try exact Hg; destruct Ho; exact eq_refl). destruct Ho; reflexivity.
Qed.
Lemma op_stop R m a r : Follow (lit ",&|?*+") r -> op_loop R (S m) a r = POk a r.
Proof.
  intros H. apply F_sc0 in H as (t & H1 & H2 & _). cbn [op_loop]. rewrite H1. unfold looks_at.
  assert (Hd : forall d, In d (lit ",&|?*+") -> ptag [d] t = PErr).
  { intros d Hd. apply ptag_hd. eapply nohd_imp; [|exact H2]. intros c E. apply among_in. apply N.eqb_eq in E. subst; exact Hd. }
  change (lit ",") with [44%N]. change (lit "&") with [38%N]. change (lit "|") with [124%N]. change (lit "?") with [63%N].
  change (lit "*") with [42%N]. change (lit "+") with [43%N]. rewrite !Hd by (cbn; tauto). reflexivity.
Qed.
Lemma post_run R p q o : Postfixes p q o -> forall m r, List.length (o ++ r) < m ->
  exists m', List.length r < m' /\ op_loop R m p (o ++ r) = op_loop R m' q r.
Proof.
  induction 1 as [p | p q c op g s Ho Hg Hs IH]; intros m r Hm; [exists m; split; [exact Hm | reflexivity]|].
  destruct m as [|m]; [lia|]. revert Hm. flat. intros Hm. rewrite (op_postfix R m p c op g _ Ho Hg). apply IH.
  assert (0 < List.length op) by (destruct Ho; cbn; lia). lens.
Qed.

(** ** The alternatives which do not apply *)
Ltac incases H tac := first [destruct H as [<- | H]; [tac | incases H tac] | destruct H].
Ltac inno H := first [destruct H as [H | H]; [discriminate H | inno H] | destruct H].
Section Alternatives.
Variable n : nat.
Variable R : rules.
Lemma named_word kw c w r : In kw Keywords -> Forall (fun c => nc_char c = true) w -> nohd nc_char r -> (w = kw -> nohd gapc r) -> named_pattern n R kw c (w ++ r) = PErr.
Proof.
  intros Hk Hw Hr Hx. unfold named_pattern. destruct (ptag_word kw w r (word_forall _ (NCName_word _ (kw_word _ Hk))) Hr) as [(w' & E & H) | [_ H]]; [|apply bind_err; exact H].
  erewrite bind_ok by exact H. apply bind_err, sc1_stop. destruct w' as [|d w']; [rewrite app_nil_r in E; apply Hx; exact E|].
  subst w. apply Forall_app in Hw as [_ Hw]. inversion Hw; subst. cbn. apply nc_char_gapc; assumption.
Qed.
Lemma braced_word kw w r : In kw Keywords -> Forall (fun c => nc_char c = true) w -> nohd nc_char r ->
  (w = kw -> exists t, sc0 r = POk tt t /\ nohd (N.eqb 123) t) -> forall C (f : unit -> parser C), (ptag kw ;* sc0 ;* pbind (ptag (lit "{")) f) (w ++ r) = PErr.
Proof.
  intros Hk Hw Hr Hx C f. destruct (ptag_word kw w r (word_forall _ (NCName_word _ (kw_word _ Hk))) Hr) as [(w' & E & H) | [_ H]]; [|apply bind_err; exact H].
  erewrite bind_ok by exact H. destruct w' as [|d w'].
  - rewrite app_nil_r in E. destruct (Hx E) as (t & H1 & H2). cbn [app]. erewrite bind_ok by exact H1. apply bind_err, ptag_hd, H2.
  - subst w. apply Forall_app in Hw as [_ Hw]. inversion Hw as [|? ? Hc _]; subst. erewrite bind_ok; [|apply sc0_nil; cbn; apply nc_char_gapc; exact Hc].
    apply bind_err, ptag_hd. cbn [app nohd]. apply nc_not; [exact Hc | reflexivity].
Qed.
Definition after4 : parser spat :=
  datatype_value_pattern <|> datatype_param_pattern n R <|> pmap SIdent identifier
  <|> (ptag (lit "parent") ;* sc1 ;* let* i := identifier in pret (SParent i))
  <|> pmap (fun _ => SEmpty) (ptag (lit "empty")) <|> pmap (fun _ => SText) (ptag (lit "text"))
  <|> pmap (fun _ => SNotAllowed) (ptag (lit "notAllowed")) <|> external_pattern <|> grammar_pattern R <|> group_pattern R.
Lemma prim_after4 x : named_pattern n R (lit "element") SElement x = PErr -> named_pattern n R (lit "attribute") SAttribute x = PErr ->
  braced_pattern R (lit "list") SList x = PErr -> braced_pattern R (lit "mixed") SMixed x = PErr -> prim n R x = after4 x.
Proof.
  intros H1 H2 H3 H4. unfold prim. rewrite por_err by exact H1. rewrite por_err by exact H2. rewrite por_err by exact H3. rewrite por_err by exact H4. reflexivity.
Qed.
Lemma after4_word w r : Forall (fun c => nc_char c = true) w -> nohd nc_char r ->
  (In w (map lit ["element"; "attribute"; "list"; "mixed"]%string) -> nohd gapc r /\ nohd (N.eqb 123) r) -> prim n R (w ++ r) = after4 (w ++ r).
Proof.
  intros Hw Hr Hx. apply prim_after4; [apply named_word | apply named_word | apply braced_word | apply braced_word]; try assumption; try inkw;
    intros ->; destruct Hx as [H1 H2]; try inkw; try assumption; exists r; (split; [apply sc0_nil; exact H1 | exact H2]).
Qed.
Lemma after4_hd x : nohd (among (lit "ealm")) x -> prim n R x = after4 x.
Proof.
  intros H. assert (Hd : forall d k, In d (lit "ealm") -> ptag (d :: k) x = PErr).
  { intros d k Hd. apply ptag_hd. eapply nohd_imp; [|exact H]. intros c E. apply among_in. apply N.eqb_eq in E. subst; exact Hd. }
  apply prim_after4; apply bind_err, Hd; cbn; tauto.
Qed.
Definition after7 : parser spat :=
  (ptag (lit "parent") ;* sc1 ;* let* i := identifier in pret (SParent i))
  <|> pmap (fun _ => SEmpty) (ptag (lit "empty")) <|> pmap (fun _ => SText) (ptag (lit "text"))
  <|> pmap (fun _ => SNotAllowed) (ptag (lit "notAllowed")) <|> external_pattern <|> grammar_pattern R <|> group_pattern R.
(** the keywords of the last seven alternatives *)
Lemma prim_kw k r : In k (map lit ["parent"; "empty"; "text"; "notAllowed"; "external"; "grammar"]%string) -> nohd nc_char r -> nohd (N.eqb 58) r ->
  prim n R (k ++ r) = after7 (k ++ r).
Proof.
  intros Hk Hr Hc. assert (Hin : In k Keywords) by (clear Hr Hc; cbn [map] in Hk; incases Hk inkw).
  pose proof (NCName_word _ (kw_word _ Hin)) as Hw. pose proof (word_starts _ Hw) as Hs.
  rewrite after4_word; [| apply word_forall, Hw | exact Hr |].
  2: { intros H. exfalso. clear - Hk H. cbn [map] in Hk, H. incases Hk ltac:(inno H). }
  assert (Hd : p_datatype_name (k ++ r) = PErr).
  { apply dtname_no.
    - clear - Hk. cbn [map] in Hk. incases Hk reflexivity.
    - clear - Hk. cbn [map] in Hk. incases Hk reflexivity.
    - apply cname_no; [apply kw_word; exact Hin | exact Hr | exact Hc]. }
  unfold after4. rewrite por_err; [|apply value_no; [exact Hd | eapply starts_nohd; [exact Hs | apply nc_char_gapc] | eapply starts_nohd; [exact Hs|]]].
  2: { intros c E. destruct (quotec c) eqn:Eq; [|reflexivity]. unfold quotec in Eq. rewrite orb_true_iff, !N.eqb_eq in Eq. destruct Eq as [-> | ->]; discriminate E. }
  rewrite por_err by (apply data_no; exact Hd). rewrite por_err by (apply pmap_err, identifier_kw; assumption). reflexivity.
Qed.
End Alternatives.
