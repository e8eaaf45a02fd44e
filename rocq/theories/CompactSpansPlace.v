(** * CompactSpansPlace: every position the compact parser records is where it should be. *)
From Coq Require Import String Lia.
From Verif Require Import Base Datatype Syntax CompactParse CompactTotal SchemaCompile Located CompactSpans CompactSpansProof.

Lemma utf8_app a b : utf8_len (a ++ b) = utf8_len a + utf8_len b.
Proof. induction a as [|c a IH]; cbn; [reflexivity|]. rewrite IH. lia. Qed.
Lemma suffix_app w r : suffix r (w ++ r). Proof. exists w. reflexivity. Qed.

Lemma covers_widen a b a' b' l : Covers (a, b) l -> (a' <= a)%N -> (b <= b')%N -> Covers (a', b') l.
Proof. intros H A B x y I. specialize (H x y I). cbn in *. lia. Qed.
Lemma covers_app sp l l' : Covers sp l -> Covers sp l' -> Covers sp (l ++ l').
Proof. intros H K x y I. apply in_app_or in I as [I|I]; auto. Qed.
Lemma covers_nil sp : Covers sp []. Proof. intros x y []. Qed.
Lemma covers_cons sp a b l : (fst sp <= a)%N -> (a <= b)%N -> (b <= snd sp)%N -> Covers sp l -> Covers sp ((a, b) :: l).
Proof. intros A B C H x y [I|I]; [injection I as <- <-; auto|auto]. Qed.

Section Place.
Variable text : str.
Let tot := utf8_len text.
Notation pos := (pos tot).

Lemma pos_le r s : suffix r s -> (pos s <= pos r)%N.
Proof. intros [w ->]. unfold CompactSpans.pos. rewrite utf8_app. lia. Qed.
Lemma slice_at s w r : suffix s text -> s = w ++ r -> Slice text (pos s, pos r) w.
Proof.
  intros [pre E] ->. exists pre, r. split; [exact E|]. subst tot. unfold CompactSpans.pos. rewrite E, !utf8_app. cbn [fst snd].
  split; f_equal; lia.
Qed.
Lemma spanned_inv {A} (p : parser A) s x r : spanned tot p s = POk x r -> p s = POk (snd x) r /\ fst x = (pos s, pos r).
Proof. unfold spanned, pbind, here, pret. destruct (p s); try discriminate. intros H. injection H as <- <-. auto. Qed.

Definition Good {A} (p : parser A) (pl : A -> Prop) (sps : A -> list span) : Prop := forall s x r, suffix s text -> p s = POk x r ->
  suffix r s /\ pl x /\ Covers (pos s, pos r) (sps x).
Lemma good_or {A} p q (pl : A -> Prop) sps : Good p pl sps -> Good q pl sps -> Good (p <|> q) pl sps.
Proof. intros H K s x r S E. apply por_inv in E as [E|E]; [exact (H _ _ _ S E)|exact (K _ _ _ S E)]. Qed.
Lemma good_cut {A} p (pl : A -> Prop) sps : Good p pl sps -> Good (pcut p) pl sps.
Proof. intros H s x r S E. apply pcut_inv in E. exact (H _ _ _ S E). Qed.
Lemma every_app {A} (P : A -> Prop) l : every P l <-> Forall P l.
Proof. induction l as [|a l IH]; cbn; [split; auto|]. rewrite IH. split; [intros [H K]; auto|intros H; inversion H; auto]. Qed.
Lemma good_sep_loop {A B} (sep : parser B) p (pl : A -> Prop) sps : Con sep -> Good p pl sps -> forall n,
  Good (sep_loop n sep p) (every pl) (flat_map sps).
Proof.
  intros Hs Hp. induction n as [|n IH]; intros s x r S E; [discriminate E|]. cbn [sep_loop] in E.
  destruct (sep s) as [c r1| | | | |] eqn:E1; try discriminate E; [|injection E as <- <-; cbn; auto using covers_nil].
  apply Hs in E1. pose proof (suffix_trans _ _ _ E1 S) as S1.
  destruct (p r1) as [y r2| | | | |] eqn:E2; try discriminate E; [|injection E as <- <-; cbn; auto using covers_nil].
  apply (Hp _ _ _ S1) in E2 as (C2 & P2 & V2). pose proof (suffix_trans _ _ _ C2 S1) as S2.
  destruct (_ =? _); [discriminate E|]. destruct (sep_loop n sep p r2) as [l r3| | | | |] eqn:E3; try discriminate E. injection E as <- <-.
  apply (IH _ _ _ S2) in E3 as (C3 & P3 & V3). pose proof (pos_le _ _ E1). pose proof (pos_le _ _ C2). pose proof (pos_le _ _ C3).
  split; [|split].
  - eapply suffix_trans; [exact C3|]. eapply suffix_trans; [exact C2|exact E1].
  - cbn. auto.
  - cbn. apply covers_app; [apply (covers_widen _ _ _ _ _ V2); lia|apply (covers_widen _ _ _ _ _ V3); lia].
Qed.
Lemma good_sep0 {A B} (sep : parser B) p (pl : A -> Prop) sps : Con sep -> Good p pl sps -> Good (psep0 sep p) (every pl) (flat_map sps).
Proof.
  intros Hs Hp s x r S E. unfold psep0 in E. destruct (p s) as [y r2| | | | |] eqn:E2; try discriminate E; [|injection E as <- <-; cbn; auto using covers_nil].
  apply (Hp _ _ _ S) in E2 as (C2 & P2 & V2). pose proof (suffix_trans _ _ _ C2 S) as S2.
  destruct (sep_loop _ sep p r2) as [l r3| | | | |] eqn:E3; try discriminate E. injection E as <- <-.
  apply (good_sep_loop sep p pl sps Hs Hp _ _ _ _ S2) in E3 as (C3 & P3 & V3). pose proof (pos_le _ _ C2). pose proof (pos_le _ _ C3).
  split; [eapply suffix_trans; eauto|]. split; [cbn; auto|].
  cbn. apply covers_app; [apply (covers_widen _ _ _ _ _ V2); lia|apply (covers_widen _ _ _ _ _ V3); lia].
Qed.
Lemma good_sep1 {A B} (sep : parser B) p (pl : A -> Prop) sps : Con sep -> Good p pl sps -> Good (psep1 sep p) (every pl) (flat_map sps).
Proof.
  intros Hs Hp s x r S E. unfold psep1 in E. apply pbind_inv in E as (y & r2 & E2 & E). apply pbind_inv in E as (l & r3 & E3 & E). injection E as <- <-.
  apply (Hp _ _ _ S) in E2 as (C2 & P2 & V2). pose proof (suffix_trans _ _ _ C2 S) as S2.
  apply (good_sep_loop sep p pl sps Hs Hp _ _ _ _ S2) in E3 as (C3 & P3 & V3). pose proof (pos_le _ _ C2). pose proof (pos_le _ _ C3).
  split; [eapply suffix_trans; eauto|]. split; [cbn; auto|].
  cbn. apply covers_app; [apply (covers_widen _ _ _ _ _ V2); lia|apply (covers_widen _ _ _ _ _ V3); lia].
Qed.

(** Reading [E : p s = POk x r] step by step: [S : suffix s text] is kept for the current state. *)
Lemma tag_inv t s u r : ptag t s = POk u r -> s = t ++ r.
Proof. destruct u. apply ptag_ok. Qed.
Lemma good_nc_spanned s x r : suffix s text -> spanned tot p_nc_name s = POk x r -> suffix r s /\ Slice text (fst x) (snd x) /\ fst x = (pos s, pos r).
Proof.
  intros S E. apply spanned_inv in E as [E F]. rewrite F. split; [exact (con_nc _ _ _ E)|]. split; [|reflexivity].
  apply (slice_at _ _ _ S). exact (nc_text _ _ _ E).
Qed.
Lemma good_id_spanned s x r : suffix s text -> spanned tot identifier s = POk x r -> suffix r s /\ Slice text (fst x) (snd x) /\ fst x = (pos s, pos r).
Proof.
  intros S E. apply spanned_inv in E as [E F]. rewrite F. split; [exact (con_identifier _ _ _ E)|]. split; [|reflexivity].
  apply (slice_at _ _ _ S). exact (identifier_text _ _ _ E).
Qed.
Lemma good_ik_spanned s x r : suffix s text -> spanned tot identifier_or_keyword s = POk x r ->
  suffix r s /\ Slice text (fst x) (ik_string (snd x)) /\ fst x = (pos s, pos r).
Proof.
  intros S E. apply spanned_inv in E as [E F]. rewrite F. split; [exact (con_idkw _ _ _ E)|]. split; [|reflexivity].
  apply (slice_at _ _ _ S). exact (idkw_text _ _ _ E).
Qed.
Lemma good_lit_spanned s x r : suffix s text -> spanned tot p_literal s = POk x r ->
  suffix r s /\ (exists w, Slice text (fst x) w /\ Quoted w) /\ fst x = (pos s, pos r).
Proof.
  intros S E. apply spanned_inv in E as [E F]. rewrite F. split; [exact (con_literal _ _ _ E)|]. split; [|reflexivity].
  apply literal_quoted in E as (w & E & Q). exists w. split; [|exact Q]. exact (slice_at _ _ _ S E).
Qed.

Ltac fwd s H := let S := fresh "S" in match goal with Ss : suffix s text |- _ => pose proof (suffix_trans _ _ _ H Ss) as S end.
Ltac step E := lazymatch type of E with
  | pbind _ _ ?s = POk _ _ =>
      let x := fresh "x" in let m := fresh "m" in let E1 := fresh "E" in
      apply pbind_inv in E as (x & m & E1 & E); cbn beta in E;
      step E1; step E
  | pret _ _ = POk _ _ => injection E as <- <-
  | here _ _ = POk _ _ => injection E as <- <-
  | ptag _ ?s = POk _ ?r => apply tag_inv in E; let H := fresh "C" in assert (H : suffix r s) by (rewrite E; apply suffix_app); fwd s H
  | sc0 ?s = POk _ _ => apply con_sc0 in E; fwd s E
  | sc1 ?s = POk _ _ => apply con_sc1 in E; fwd s E
  | p_nc_name ?s = POk _ _ => apply con_nc in E; fwd s E
  | p_literal ?s = POk _ _ => apply con_literal in E; fwd s E
  | p_datatype_name ?s = POk _ _ => apply con_dtname in E; fwd s E
  | assign_method ?s = POk _ _ => apply con_assign in E; fwd s E
  | opt_inherit ?s = POk _ _ => apply con_opt_inherit in E; fwd s E
  | maybe_initial_annotation _ ?s = POk _ _ => apply con_initial in E; fwd s E
  | follow_annotation_list _ ?s = POk _ _ => apply con_follow in E; fwd s E
  | pcut _ _ = POk _ _ => apply pcut_inv in E; step E
  | spanned _ p_nc_name ?s = POk ?x ?r => spn good_nc_spanned s x E
  | spanned _ identifier ?s = POk ?x ?r => spn good_id_spanned s x E
  | spanned _ identifier_or_keyword ?s = POk ?x ?r => spn good_ik_spanned s x E
  | spanned _ p_literal ?s = POk ?x ?r => spn good_lit_spanned s x E
  | ?p ?s = POk _ _ =>
      match goal with
      | G : Good p _ _, S : suffix s text |- _ =>
          let C := fresh "C" in let P := fresh "P" in let V := fresh "V" in apply (G _ _ _ S) in E as (C & P & V); fwd s C
      | G : Con p |- _ => apply G in E; fwd s E
      | _ => idtac
      end
  | _ => idtac
  end
with spn lem s x E := let C := fresh "C" in let P := fresh "P" in let F := fresh "F" in let a := fresh "a" in let b := fresh "b" in let v := fresh "v" in
  match goal with S : suffix s text |- _ => apply (lem _ _ _ S) in E as (C & P & F) end; fwd s C;
  destruct x as [[a b] v]; cbn [fst snd] in *; injection F as -> ->.
Ltac chain := match goal with
  | |- suffix ?r ?r => apply suffix_refl
  | H : suffix ?r ?s |- suffix ?r ?s => exact H
  | H : suffix ?r ?m |- suffix ?r ?s => apply (suffix_trans r m s H); chain end.
Ltac poses := repeat match goal with
  | H : suffix ?r ?s |- _ => lazymatch goal with K : (CompactSpans.pos tot s <= CompactSpans.pos tot r)%N |- _ => fail | _ => pose proof (pos_le r s H) end end.
Ltac cov := poses; cbn [fst snd] in *; repeat first
  [ apply covers_nil
  | apply covers_cons; cbn [fst snd]; [lia|lia|lia|]
  | match goal with V : Covers _ ?l |- Covers _ ?l => apply (covers_widen _ _ _ _ _ V); cbn [fst snd]; lia end
  | apply covers_app ].

Lemma good_name : Good (l_name tot) (placed_nc text) nc_spans.
Proof.
  apply good_or.
  - intros s x r S E. unfold l_cname in E. step E. split; [chain|]. split; [assumption|]. cbn [nc_spans]. cov.
  - intros s x r S E. apply pmap_inv in E as (y & E & ->). apply (good_ik_spanned _ _ _ S) in E as (C1 & P1 & F1).
    destruct y as [[a b] i]. cbn [fst snd] in *. injection F1 as -> ->. split; [exact C1|]. split; [exact P1|]. cbn [nc_spans]. cov.
Qed.

Lemma good_opt {A} p (pl : A -> Prop) sps : Good p pl sps ->
  Good (popt p) (fun o => match o with Some e => pl e | None => True end) (fun o => match o with Some e => sps e | None => [] end).
Proof.
  intros H s x r S E. apply popt_inv in E as [(y & -> & E)|[-> ->]]; [exact (H _ _ _ S E)|]. split; [apply suffix_refl|]. split; [exact I|]. apply covers_nil.
Qed.
Lemma good_map {A B} (f : A -> B) p (pl : A -> Prop) sps (pl' : B -> Prop) sps' : Good p pl sps -> (forall a, pl a -> pl' (f a)) -> (forall a, sps' (f a) = sps a) ->
  Good (pmap f p) pl' sps'.
Proof.
  intros H K L s x r S E. apply pmap_inv in E as (y & E & ->). apply (H _ _ _ S) in E as (C & P & V). rewrite L. auto.
Qed.
Ltac fin := split; [chain|]; split; [cbn; auto|cbn; cov].
Lemma good_except nc : Good nc (placed_nc text) nc_spans ->
  Good (l_except_nc nc) (fun o => match o with Some e => placed_nc text e | None => True end) (fun o => match o with Some e => nc_spans e | None => [] end).
Proof. intros H. apply good_opt. intros s x r S E. step E. fin. Qed.
Lemma good_prim_nc nc : Good nc (placed_nc text) nc_spans -> Good (l_prim_nc tot nc) (placed_nc text) nc_spans.
Proof.
  intros H. pose proof (good_except nc H) as He. unfold l_prim_nc. apply good_or; [|apply good_or; [|apply good_or]].
  - intros s x r S E. unfold l_ns_name_nc in E. step E. fin.
  - exact good_name.
  - intros s x r S E. unfold l_any_name_nc in E. step E. fin.
  - intros s x r S E. unfold l_paren_nc in E. step E. fin.
Qed.
Lemma good_alt_step nc a s x r s0 : Good nc (placed_nc text) nc_spans -> suffix s text -> l_alt_step nc a s = POk x r ->
  placed_nc text a -> suffix s s0 -> Covers (pos s0, pos s) (nc_spans a) -> suffix r s /\ placed_nc text x /\ Covers (pos s0, pos r) (nc_spans x).
Proof.
  intros H S E P C V. unfold l_alt_step in E. destruct (l_alt_nc nc s) as [b m| | | | |] eqn:E1; try discriminate E.
  - injection E as <- <-. unfold l_alt_nc in E1. step E1. split; [chain|]. split; [cbn; auto|]. cbn. cov.
  - injection E as <- <-. auto using suffix_refl.
  - injection E as <- <-. auto using suffix_refl.
  - injection E as <- <-. auto using suffix_refl.
Qed.
Lemma good_name_class n : Good (l_name_class tot n) (placed_nc text) nc_spans.
Proof.
  induction n as [|n IH]; [intros s x r S E; discriminate E|]. pose proof (good_prim_nc _ IH) as Hp. intros s x r S E. cbn [l_name_class] in E. step E.
  assert (E' : l_alt_step (l_name_class tot n) x1 m1 = POk x r).
  { destruct x2; [exact E|]. destruct x0; [exact E|discriminate E]. }
  apply (good_alt_step _ _ _ _ _ m IH S2) in E' as (C3 & P3 & V3).
  - fin.
  - exact P.
  - chain.
  - cov.
Qed.
Definition inh_spans (i : option (span * id_or_kw)) : list span := match i with Some (isp, _) => [isp] | None => [] end.
Definition placed_inh (i : option (span * id_or_kw)) : Prop := match i with Some (isp, j) => Slice text isp (ik_string j) | None => True end.
Lemma good_inherit : Good (l_opt_inherit tot) placed_inh inh_spans.
Proof.
  intros s x r S E. apply popt_inv in E as [(y & -> & E)|[-> ->]]; [|split; [apply suffix_refl|]; split; [exact I|apply covers_nil]].
  unfold l_inherit in E. step E. fin.
Qed.

Lemma good_dtname : Good (l_datatype_name tot) (placed_dt text) dt_spans.
Proof.
  unfold l_datatype_name. apply good_or; [|apply good_or].
  - intros s x r S E. apply pmap_inv in E as (y & E & ->). step E. fin.
  - intros s x r S E. apply pmap_inv in E as (y & E & ->). step E. fin.
  - intros s x r S E. unfold l_datatype_cname in E. step E. fin.
Qed.
Lemma good_param n : Good (spanned tot (p_param n)) (placed_param text) (fun x => [fst x]).
Proof.
  intros s x r S E. apply spanned_inv in E as [E F]. destruct x as [[a b] [[an k] v]]. cbn [fst snd] in *. injection F as -> ->.
  unfold p_param in E. apply pbind_inv in E as (x1 & m1 & E1 & E). apply pbind_inv in E as (x2 & m2 & E2 & E). apply pbind_inv in E as (x3 & m3 & E3 & E).
  apply pbind_inv in E as (x4 & m4 & E4 & E). apply pbind_inv in E as (x5 & m5 & E5 & E). apply pbind_inv in E as (x6 & m6 & E6 & E). apply pbind_inv in E as (x7 & m7 & E7 & E).
  injection E as <- <- <- <-. apply con_initial in E1. apply con_sc0 in E2. apply con_sc0 in E4. apply con_sc0 in E6. apply tag_inv in E5. apply idkw_text in E3. apply literal_quoted in E7 as (w & -> & Q).
  destruct E1 as [w1 E1], E2 as [w2 E2], E4 as [w4 E4], E6 as [w6 E6].
  assert (T : s = ((w1 ++ w2) ++ ik_string x3 ++ (w4 ++ lit "=" ++ w6) ++ w) ++ m7) by (rewrite E1, E2, E3, E4, E5, E6, <- !app_assoc; reflexivity).
  assert (C : suffix m7 s) by (rewrite T; apply suffix_app).
  split; [exact C|]. split; [|cov]. exists (w1 ++ w2), (w4 ++ lit "=" ++ w6), w. split; [|exact Q]. apply (slice_at _ _ _ S). exact T.
Qed.
Lemma good_params n : Good (l_params tot n) (every (placed_param text)) (flat_map (fun x => [fst x])).
Proof.
  pose proof (good_sep0 sc1 _ _ _ con_sc1 (good_param n)) as Hl. intros s x r S E. unfold l_params in E. step E. fin.
Qed.

Section Bodies.
Variables (n : nat) (R : lrules).
Hypothesis Hp : Good (lr_pattern R) (placed_pat text) pat_spans.
Hypothesis Hg : Good (lr_grammar R) (placed_content text) content_spans.
Hypothesis Hi : Good (lr_include R) (placed_override text) override_spans.

Lemma block_at kw s m1 m2 r sps : suffix s text -> s = kw ++ m1 -> suffix m2 m1 -> m2 = lit "}" ++ r -> Covers (pos m1, pos m2) sps ->
  placed_block text kw (pos s, pos r) sps.
Proof.
  intros S E [w ->] -> V. split.
  - exists w. apply (slice_at _ _ _ S). rewrite E, <- !app_assoc. reflexivity.
  - apply (covers_widen _ _ _ _ _ V).
    + rewrite E. apply pos_le. exists kw. reflexivity.
    + apply pos_le. exists (lit "}"). reflexivity.
Qed.
Lemma good_named kw c : (forall sp nc q, placed_block text kw sp (nc_spans nc ++ pat_spans q) -> placed_nc text nc -> placed_pat text q -> placed_pat text (c sp nc q)) ->
  (forall sp nc q, pat_spans (c sp nc q) = sp :: nc_spans nc ++ pat_spans q) -> Good (l_named_pattern tot n R kw c) (placed_pat text) pat_spans.
Proof.
  intros Hc Hs s x r S E. unfold l_named_pattern in E. pose proof (good_name_class n) as Hn. step E.
  split; [chain|]. split.
  - apply Hc; try assumption. eapply (block_at kw); [exact S|eassumption| |eassumption|]; [chain|]. cov.
  - rewrite Hs. cov.
Qed.
Lemma good_braced kw c : (forall q, placed_pat text q -> placed_pat text (c q)) -> (forall q, pat_spans (c q) = pat_spans q) ->
  Good (l_braced_pattern R kw c) (placed_pat text) pat_spans.
Proof. intros Hc Hs s x r S E. unfold l_braced_pattern in E. step E. split; [chain|]. split; [auto|]. rewrite Hs. cov. Qed.
Lemma some_slice s r : suffix s text -> suffix r s -> exists w, Slice text (pos s, pos r) w.
Proof. intros S [w E]. exists w. exact (slice_at _ _ _ S E). Qed.
Lemma good_prim : Good (l_prim tot n R) (placed_pat text) pat_spans.
Proof.
  unfold l_prim. repeat apply good_or.
  - apply good_named; cbn; auto.
  - apply good_named; cbn; auto.
  - apply good_braced; cbn; auto.
  - apply good_braced; cbn; auto.
  - pose proof (good_opt _ _ _ good_dtname) as Hd. intros s x r S E. unfold l_datatype_value_pattern in E. step E. split; [chain|]. split; [assumption|cbn [pat_spans]; cov].
  - pose proof good_dtname as Hd. pose proof (good_opt _ _ _ (good_params n)) as Hs.
    assert (He : Good (popt (sc0 ;* l_except_pattern R)) (fun o => match o with Some e => placed_pat text e | None => True end) (fun o => match o with Some e => pat_spans e | None => [] end)).
    { apply good_opt. intros s x r S E. unfold l_except_pattern in E. step E. fin. }
    intros s x r S E. unfold l_datatype_param_pattern in E. step E. split; [chain|]. split; [cbn [placed_pat]; auto|cbn [pat_spans]; cov].
  - intros s x r S E. apply pmap_inv in E as (y & E & ->). step E. fin.
  - intros s x r S E. step E. fin.
  - intros s x r S E. apply pmap_inv in E as (y & E & ->). step E. fin.
  - intros s x r S E. apply pmap_inv in E as (y & E & ->). step E. fin.
  - intros s x r S E. apply pmap_inv in E as (y & E & ->). step E. fin.
  - intros s x r S E. unfold l_external_pattern in E. step E. fin.
  - pose proof (good_sep0 sc1 _ _ _ con_sc1 Hg) as Hl. intros s x r S E. unfold l_grammar_pattern in E. step E. split; [chain|]. split.
    + split; [|assumption]. eapply (block_at (lit "grammar")); [exact S|eassumption| |eassumption|]; [chain|]. cov.
    + cbn. cov.
  - intros s x r S E. unfold l_group_pattern in E. step E. fin.
Qed.
Lemma good_infix op c a s x r s0 : (forall b, placed_pat text a -> placed_pat text b -> placed_pat text (c a b)) ->
  (forall b, pat_spans (c a b) = pat_spans a ++ pat_spans b) ->
  suffix s text -> l_infix R op c a s = POk x r -> placed_pat text a -> suffix s s0 -> Covers (pos s0, pos s) (pat_spans a) ->
  suffix r s /\ placed_pat text x /\ Covers (pos s0, pos r) (pat_spans x).
Proof. intros Hc Hs S E P C V. unfold l_infix in E. step E. split; [chain|]. split; [auto|]. rewrite Hs. cov. Qed.
Lemma good_postfix op c a s x r s0 : (placed_pat text a -> placed_pat text (c a)) -> (pat_spans (c a) = pat_spans a) ->
  suffix s text -> l_postfix op c a s = POk x r -> placed_pat text a -> suffix s s0 -> Covers (pos s0, pos s) (pat_spans a) ->
  suffix r s /\ placed_pat text x /\ Covers (pos s0, pos r) (pat_spans x).
Proof. intros Hc Hs S E P C V. unfold l_postfix in E. step E. split; [chain|]. split; [auto|]. rewrite Hs. cov. Qed.
Lemma good_op_loop : forall m a s x r s0, suffix s text -> l_op_loop R m a s = POk x r -> placed_pat text a -> suffix s s0 ->
  Covers (pos s0, pos s) (pat_spans a) -> suffix r s /\ placed_pat text x /\ Covers (pos s0, pos r) (pat_spans x).
Proof.
  induction m as [|m IH]; intros a s x r s0 S E P C V; [discriminate E|]. cbn [l_op_loop] in E.
  destruct (sc0 s) as [u i| | | | |] eqn:E0; try discriminate E. step E0.
  assert (K : forall (q : parser lspat),
    (forall y j, q i = POk y j -> suffix j i /\ placed_pat text y /\ Covers (pos s0, pos j) (pat_spans y)) ->
    (let* p := q in l_op_loop R m p) i = POk x r -> suffix r s /\ placed_pat text x /\ Covers (pos s0, pos r) (pat_spans x)).
  { intros q Hq F. apply pbind_inv in F as (y & j & F1 & F). apply Hq in F1 as (C1 & P1 & V1). fwd i C1.
    apply (IH _ _ _ _ s0) in F as (C2 & P2 & V2); [|assumption|exact P1|chain|exact V1]. split; [chain|]. split; [exact P2|exact V2]. }
  assert (Vi : Covers (pos s0, pos i) (pat_spans a)) by cov. assert (Ci : suffix i s0) by chain.
  repeat (match type of E with (if looks_at ?t i then _ else _) = _ => destruct (looks_at t i) end;
    [revert E; apply K; intros y j F;
     first [apply (good_infix _ _ _ _ _ _ s0) in F; cbn; auto | apply (good_postfix _ _ _ _ _ _ s0) in F; cbn; auto]|]).
  injection E as <- <-. auto using suffix_refl.
Qed.
Lemma good_pattern_body : Good (l_pattern_body tot n R) (placed_pat text) pat_spans.
Proof.
  pose proof good_prim as Hq. intros s x r S E. unfold l_pattern_body in E. step E. 
  apply (good_op_loop _ _ _ _ _ m) in E as (C1 & P1 & V1); [|assumption|exact P|chain|cov]. split; [chain|]. split; [exact P1|cov].
Qed.
Lemma good_start s x r : suffix s text -> l_start_name tot s = POk x r -> suffix r s /\ placed_def text (fst x) (snd x) /\ fst x = (pos s, pos s).
Proof.
  intros S E. unfold l_start_name in E. apply pbind_inv in E as (a & m & E1 & E). injection E1 as <- <-.
  apply pmap_inv in E as (u & E & ->). pose proof E as E'. step E. cbn [fst snd]. split; [chain|]. split; [|reflexivity]. right.
  split; [reflexivity|]. split; [reflexivity|]. pose proof (slice_at _ _ _ S E) as H.
  assert (L : pos r = (pos s + 5)%N).
  { clear H. destruct S as [pre F]. unfold CompactSpans.pos, tot. replace (utf8_len text) with (utf8_len pre + (5 + utf8_len r)) by (rewrite F, E, !utf8_app; reflexivity). rewrite E, !utf8_app. change (utf8_len (lit "start")) with 5. lia. }
  rewrite L in H. exact H.
Qed.
Lemma good_def s x r : suffix s text -> spanned tot identifier s = POk x r -> suffix r s /\ placed_def text (fst x) (snd x) /\ fst x = (pos s, pos r).
Proof. intros S E. apply (good_id_spanned _ _ _ S) in E as (C & P & F). split; [exact C|]. split; [left; exact P|exact F]. Qed.
Lemma good_assignment {A} nm c (pl : A -> Prop) sps :
  (forall s x r, suffix s text -> nm s = POk x r -> suffix r s /\ placed_def text (fst x) (snd x) /\ exists m, fst x = (pos s, pos m) /\ suffix m s /\ suffix r m) ->
  (forall sp i h p, placed_def text sp i -> placed_pat text p -> pl (c sp i h p)) -> (forall sp i h p, sps (c sp i h p) = sp :: pat_spans p) ->
  Good (l_assignment R nm c) pl sps.
Proof.
  intros Hn Hc Hs s x r S E. unfold l_assignment in E. apply pbind_inv in E as (y & m & E1 & E).
  apply (Hn _ _ _ S) in E1 as (C & P & m' & F & C1 & C2). fwd s C. destruct y as [sp i]. cbn [fst snd] in *. subst sp. step E. 
  split; [chain|]. split; [auto|]. rewrite Hs. cov.
Qed.
Lemma good_div {A B} item (c : list A -> B) pl sps (pl' : B -> Prop) sps' : Good item pl sps -> (forall l, every pl l -> pl' (c l)) ->
  (forall l, sps' (c l) = flat_map sps l) -> Good (div_content item c) pl' sps'.
Proof.
  intros H Hc Hs. pose proof (good_sep0 sc1 _ _ _ con_sc1 H) as Hl. intros s x r S E. unfold div_content in E. step E.
  split; [chain|]. split; [auto|]. rewrite Hs. cov.
Qed.
Lemma good_include : Good (l_include tot R) (placed_content text) content_spans.
Proof.
  pose proof (good_sep0 sc1 _ _ _ con_sc1 Hi) as Hl. pose proof good_inherit as Hinh.
  assert (Ho : Good (popt (l_overrides R)) (fun o => match o with Some e => every (placed_override text) e | None => True end)
                    (fun o => match o with Some e => flat_map override_spans e | None => [] end)).
  { apply good_opt. intros s x r S E. unfold l_overrides in E. step E. fin. }
  intros s x r S E. unfold l_include in E. step E. split; [chain|]. split; [cbn; auto|]. cbn [content_spans].
  match goal with V : Covers _ (inh_spans ?i) |- _ => fold (inh_spans i) end.
  apply covers_cons; [poses; cbn; lia..|]. apply covers_app; cov.
Qed.
Lemma start_ok s x r : suffix s text -> l_start_name tot s = POk x r -> suffix r s /\ placed_def text (fst x) (snd x) /\ exists m, fst x = (pos s, pos m) /\ suffix m s /\ suffix r m.
Proof. intros S E. apply (good_start _ _ _ S) in E as (C & P & F). split; [exact C|]. split; [exact P|]. exists s. auto using suffix_refl. Qed.
Lemma def_ok s x r : suffix s text -> spanned tot identifier s = POk x r -> suffix r s /\ placed_def text (fst x) (snd x) /\ exists m, fst x = (pos s, pos m) /\ suffix m s /\ suffix r m.
Proof. intros S E. apply (good_def _ _ _ S) in E as (C & P & F). split; [exact C|]. split; [exact P|]. exists r. auto using suffix_refl. Qed.
Lemma good_grammar_body : Good (l_grammar_body tot n R) (placed_content text) content_spans.
Proof.
  unfold l_grammar_body. repeat apply good_or.
  - apply good_assignment; [exact start_ok|cbn; auto|reflexivity].
  - apply good_assignment; [exact def_ok|cbn; auto|reflexivity].
  - apply (good_div _ _ _ _ _ _ Hg); [cbn; auto|reflexivity].
  - exact good_include.
  - intros s x r S E. apply pmap_inv in E as (y & E & ->). apply con_annotation in E. fin.
Qed.
Lemma good_include_body : Good (l_include_body tot n R) (placed_override text) override_spans.
Proof.
  assert (H : Good (pmap LIAnnotation (annotation_element n) <|> l_assignment R (spanned tot identifier) LIDefine
     <|> l_assignment R (l_start_name tot) LIDefine <|> div_content (lr_include R) LIDiv) (placed_override text) override_spans).
  { repeat apply good_or.
    - intros s x r S E. apply pmap_inv in E as (y & E & ->). apply con_annotation in E. fin.
    - apply good_assignment; [exact def_ok|cbn; auto|reflexivity].
    - apply good_assignment; [exact start_ok|cbn; auto|reflexivity].
    - apply (good_div _ _ _ _ _ _ Hi); [cbn; auto|reflexivity]. }
  intros s x r S E. unfold l_include_body in E. apply pbind_inv in E as (y & m & E1 & E). step E1. step E. fin.
Qed.
End Bodies.

Lemma good_parsers n : Good (lr_pattern (l_parsers tot n)) (placed_pat text) pat_spans /\
  Good (lr_grammar (l_parsers tot n)) (placed_content text) content_spans /\
  Good (lr_include (l_parsers tot n)) (placed_override text) override_spans.
Proof.
  induction n as [|n (H1 & H2 & H3)]; [split; [|split]; intros s x r S E; discriminate E|]. cbn [l_parsers lr_pattern lr_grammar lr_include].
  split; [|split].
  - apply good_pattern_body; assumption.
  - apply good_grammar_body; assumption.
  - apply good_include_body; assumption.
Qed.
Lemma good_schema n x : l_schema tot n text = POk x [] -> placed text x /\ Covers (0, N.of_nat tot)%N (top_spans (ls_top x)).
Proof.
  unfold l_schema, all_consuming. destruct (pbind _ _ text) as [y [|? ?]| | | | |] eqn:E; try discriminate. intros F. injection F as <-.
  pose proof (suffix_refl text) as S. destruct (good_parsers n) as (H1 & H2 & _).
  assert (Ht : Good (pmap LTGrammar (psep1 sc1 (lr_grammar (l_parsers tot n))) <|> pmap LTPattern (lr_pattern (l_parsers tot n)))
    (fun t => match t with LTPattern p => placed_pat text p | LTGrammar l => every (placed_content text) l end) top_spans).
  { apply good_or.
    - apply (good_map _ _ _ _ _ _ (good_sep1 sc1 _ _ _ con_sc1 H2)); [cbn; auto|reflexivity].
    - apply (good_map _ _ _ _ _ _ H1); [cbn; auto|reflexivity]. }
  pose proof (con_sep0 sc1 _ con_sc1 con_decl) as Hd. unfold l_top_level in E. remember (@nil N) as r0 eqn:Hr0 in E. step E. unfold placed. cbn [ls_top].
  split; [exact P|]. poses. apply (covers_widen _ _ _ _ _ V); [lia|].
  unfold CompactSpans.pos. lia.
Qed.
End Place.

Theorem parsed_placed text s : parse_compact_located text = LParsed s ->
  placed text s /\ Covers (0, N.of_nat (utf8_len text))%N (top_spans (ls_top s)).
Proof.
  unfold parse_compact_located. destruct (l_schema _ _ text) as [x r| | | | |] eqn:E; try discriminate. intros H. injection H as <-.
  assert (r = []) as ->. { unfold l_schema, all_consuming in E. destruct (pbind _ _ text) as [y [|? ?]| | | | |]; try discriminate E. injection E as _ <-. reflexivity. }
  exact (good_schema text _ x E).
Qed.
