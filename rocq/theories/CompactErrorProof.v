(** * CompactErrorProof: the text before the position of a syntax error begins a text of the compact syntax. *)
From Coq Require Import String.
From Verif Require Import Base Datatype Syntax Located CompactText CompactLex CompactSound CompactMain.
From Verif Require CompactParse CompactTotal CompactSpansPlace.
From Verif Require Import CompactError CompactErrorSim.
#[local] Existing Instance lax_mode.

(** ** Parsers that read, fail and err *)
Definition EReads {A} (X : A -> str -> Prop) (p : parser A) : Prop := forall s a r, p s = POk a r -> exists t, s = t ++ r /\ X a t.
Lemma reads {A} (X : A -> str -> Prop) e p : Sim e p -> Reads X p -> EReads X e.
Proof. intros H K s a r E. apply K. rewrite <- (H s), E. reflexivity. Qed.
(** a failure comes after text of which [Y] holds; an error likewise *)
Definition St {A} (Y : str -> Prop) (p : parser A) : Prop := forall s e, p s = PFail e -> exists u, s = u ++ e /\ Y u.
Definition Se {A} (Y : str -> Prop) (p : parser A) : Prop := forall s e, p s = PErr e -> exists u, s = u ++ e /\ Y u.
Definition never (_ : str) : Prop := False.
Lemma never_st {A} Y (p : parser A) : St never p -> St Y p.
Proof. intros H s e E. apply H in E as (u & _ & []). Qed.
Lemma never_se {A} Y (p : parser A) : Se never p -> Se Y p.
Proof. intros H s e E. apply H in E as (u & _ & []). Qed.
Lemma st_weak {A} (Y Z : str -> Prop) (p : parser A) : (forall u, Y u -> Z u) -> St Y p -> St Z p.
Proof. intros H K s e E. apply K in E as (u & -> & U). eauto. Qed.
Lemma se_weak {A} (Y Z : str -> Prop) (p : parser A) : (forall u, Y u -> Z u) -> Se Y p -> Se Z p.
Proof. intros H K s e E. apply K in E as (u & -> & U). eauto. Qed.

Lemma st_ret {A} Y (a : A) : St Y (pret a).
Proof. intros s e E. discriminate. Qed.
Lemma se_ret {A} Y (a : A) : Se Y (pret a).
Proof. intros s e E. discriminate. Qed.
Lemma st_bind {A B} (X : A -> str -> Prop) Y (p : parser A) (f : A -> parser B) :
  EReads X p -> St Y p -> (forall a t, X a t -> St (fun u => Y (t ++ u)) (f a)) -> St Y (pbind p f).
Proof.
  intros R H K s e E. unfold pbind in E. destruct (p s) as [a r| | | | |] eqn:Ep; try discriminate.
  - apply R in Ep as (t & -> & T). apply (K a t T) in E as (u & -> & U). exists (t ++ u). split; [apply app_assoc | exact U].
  - injection E as <-. eapply H. exact Ep.
Qed.
Lemma se_bind {A B} (X : A -> str -> Prop) Y (p : parser A) (f : A -> parser B) :
  EReads X p -> Se Y p -> (forall a t, X a t -> Se (fun u => Y (t ++ u)) (f a)) -> Se Y (pbind p f).
Proof.
  intros R H K s e E. unfold pbind in E. destruct (p s) as [a r| | | | |] eqn:Ep; try discriminate.
  - apply R in Ep as (t & -> & T). apply (K a t T) in E as (u & -> & U). exists (t ++ u). split; [apply app_assoc | exact U].
  - injection E as <-. eapply H. exact Ep.
Qed.
Lemma st_map {A B} Y (f : A -> B) (p : parser A) : St Y p -> St Y (pmap f p).
Proof. intros H s e E. unfold pmap, pbind in E. destruct (p s) eqn:Ep; try discriminate. injection E as <-. eapply H. exact Ep. Qed.
Lemma se_map {A B} Y (f : A -> B) (p : parser A) : Se Y p -> Se Y (pmap f p).
Proof. intros H s e E. unfold pmap, pbind in E. destruct (p s) eqn:Ep; try discriminate. injection E as <-. eapply H. exact Ep. Qed.
Lemma st_or {A} Y (p q : parser A) : St Y p -> St Y q -> St Y (por p q).
Proof. intros H K s e E. unfold por in E. destruct (p s) eqn:Ep; try discriminate; [apply K; exact E | injection E as <-; eapply H; exact Ep]. Qed.
Lemma se_or {A} Y (p q : parser A) : Se Y q -> Se Y (por p q).
Proof. intros K s e E. unfold por in E. destruct (p s) eqn:Ep; try discriminate. apply K. exact E. Qed.
Lemma st_opt {A} Y (p : parser A) : St Y p -> St Y (popt p).
Proof. intros H s e E. unfold popt in E. destruct (p s) eqn:Ep; try discriminate. injection E as <-. eapply H. exact Ep. Qed.
Lemma se_opt {A} Y (p : parser A) : Se Y (popt p).
Proof. intros s e E. unfold popt in E. destruct (p s); discriminate. Qed.
Lemma st_cut {A} Y (p : parser A) : St Y p -> Se Y p -> St Y (pcut p).
Proof. intros H K s e E. unfold pcut in E. destruct (p s) eqn:Ep; try discriminate; injection E as <-; [eapply K | eapply H]; exact Ep. Qed.
Lemma se_cut {A} Y (p : parser A) : Se Y (pcut p).
Proof. intros s e E. unfold pcut in E. destruct (p s); discriminate. Qed.
Lemma st_not {A} Y (p : parser A) : St Y p -> St Y (pnot p).
Proof. intros H s e E. unfold pnot in E. destruct (p s) eqn:Ep; try discriminate. injection E as <-. eapply H. exact Ep. Qed.
Lemma st_tag Y k : St Y (ptag k).
Proof. intros s e E. unfold ptag in E. destruct (strip k s); discriminate. Qed.
Lemma se_tag (Y : str -> Prop) k : Y [] -> Se Y (ptag k).
Proof. intros H s e E. unfold ptag in E. destruct (strip k s); [discriminate|]. injection E as <-. exists []. auto. Qed.
Lemma st_sat Y f : St Y (psat f).
Proof. intros [|c s] e E; cbn in E; [discriminate|]. destruct (f c); discriminate. Qed.
Lemma st_recog {A} Y (p : parser A) : St Y p -> St Y (precog p).
Proof. intros H s e E. unfold precog in E. destruct (p s) eqn:Ep; try discriminate. injection E as <-. eapply H. exact Ep. Qed.
Lemma st_never_bind {A B} (p : parser A) (f : A -> parser B) : St never p -> (forall a, St never (f a)) -> St never (pbind p f).
Proof.
  intros H K s e E. unfold pbind in E. destruct (p s) as [a r| | | | |] eqn:Ep; try discriminate.
  - apply K in E as (? & _ & []).
  - apply H in Ep as (? & _ & []).
Qed.
Lemma st_never_many {A} (p : parser A) : St never p -> forall n s e, many_loop n p s <> PFail e.
Proof.
  intros H. induction n as [|n IH]; intros s e E; [discriminate|]. cbn in E. destruct (p s) as [a r| | | | |] eqn:Ep; try discriminate.
  - destruct (_ =? _); [discriminate|]. destruct (many_loop n p r) eqn:Em; try discriminate. eapply IH. exact Em.
  - apply H in Ep as (? & _ & []).
Qed.
Lemma st_never_many0 {A} (p : parser A) : St never p -> St never (pmany0 p).
Proof. intros H s e E. destruct (st_never_many p H _ _ _ E). Qed.
Lemma st_never_many1 {A} (p : parser A) : St never p -> St never (pmany1 p).
Proof.
  intros H s e E. unfold pmany1 in E. destruct (p s) as [a r| | | | |] eqn:Ep; try discriminate.
  - unfold pbind in E. destruct (pmany0 p r) eqn:Em; try discriminate. apply st_never_many0 in Em as (? & _ & []). exact H.
  - apply H in Ep as (? & _ & []).
Qed.
Lemma st_never_sep {A B} (sep : parser B) (p : parser A) : St never sep -> St never p -> forall n s e, sep_loop n sep p s <> PFail e.
Proof.
  intros K H. induction n as [|n IH]; intros s e E; [discriminate|]. cbn in E. destruct (sep s) as [b r| | | | |] eqn:Es; try discriminate.
  - destruct (p r) as [a r2| | | | |] eqn:Ep; try discriminate.
    + destruct (_ =? _); [discriminate|]. destruct (sep_loop n sep p r2) eqn:Em; try discriminate. eapply IH. exact Em.
    + apply H in Ep as (? & _ & []).
  - apply K in Es as (? & _ & []).
Qed.
Lemma st_never_sep0 {A B} (sep : parser B) (p : parser A) : St never sep -> St never p -> St never (psep0 sep p).
Proof.
  intros K H s e E. unfold psep0 in E. destruct (p s) as [a r| | | | |] eqn:Ep; try discriminate.
  - destruct (sep_loop _ sep p r) eqn:Em; try discriminate. destruct (st_never_sep _ _ K H _ _ _ Em).
  - apply H in Ep as (? & _ & []).
Qed.
Lemma st_never_sep1 {A B} (sep : parser B) (p : parser A) : St never sep -> St never p -> St never (psep1 sep p).
Proof.
  intros K H. apply st_never_bind; [exact H|]. intros a. apply st_never_bind; [|intros l; apply st_ret]. intros s e E. destruct (st_never_sep _ _ K H _ _ _ E).
Qed.
Lemma st_until t : St never (take_until t).
Proof. intros s e E. unfold take_until in E. destruct (until t s) as [[b r]|]; discriminate. Qed.
Lemma st_run cs : St never (run_without cs).
Proof. intros s e E. unfold run_without in E. destruct (take_while _ s). discriminate. Qed.
Lemma st_space : St never multispace1.
Proof. intros s e E. unfold multispace1 in E. destruct (take_while _ s) as [[|a l] b]; discriminate. Qed.
Lemma st_line : St never not_line_ending.
Proof.
  intros s e E. unfold not_line_ending in E. destruct (take_while _ s) as [a [|c b]]; [discriminate|]. destruct (c =? 13)%N; [|discriminate].
  destruct b as [|d b]; [discriminate|]. destruct (d =? 10)%N; discriminate.
Qed.
Lemma st_nc_name : St never p_nc_name.
Proof. intros s e E. unfold p_nc_name in E. destruct (nc_name s) as [[a r]|]; discriminate. Qed.
Lemma st_perr {A} : St never (@perr A).
Proof. intros s e E. discriminate. Qed.
Lemma st_alt_tags l : St never (alt_tags l).
Proof. induction l as [|t l IH]; [apply st_perr|]. apply st_or; [|exact IH]. apply st_never_bind; [apply st_tag | intros; apply st_ret]. Qed.
Ltac st := repeat first
  [ assumption | apply st_ret | apply st_tag | apply st_sat | apply st_until | apply st_run | apply st_space | apply st_line | apply st_nc_name | apply st_alt_tags | apply st_perr
  | match goal with |- forall _, St _ _ => intros ? end
  | apply st_map | apply st_or | apply st_opt | apply st_not | apply st_recog | apply st_never_many0 | apply st_never_many1 | apply st_never_sep0 | apply st_never_sep1 | apply st_never_bind ].
Lemma st_sc0 : St never sc0. Proof. unfold sc0, space_or_comment, comment. st. Qed.
Lemma st_sc1 : St never sc1. Proof. unfold sc1, space_or_comment, comment. st. Qed.
Ltac st1 := pose proof st_sc0; pose proof st_sc1; st.
Lemma st_keyword : St never keyword. Proof. unfold keyword. st1. Qed.
Lemma st_identifier : St never identifier. Proof. unfold identifier. pose proof st_keyword. st1. Qed.
Lemma st_idkw : St never identifier_or_keyword. Proof. unfold identifier_or_keyword. pose proof st_keyword. pose proof st_identifier. st1. Qed.
Lemma st_literal : St never p_literal. Proof. unfold p_literal, literal_segment, delim. st1. Qed.
Lemma st_uri : St never namespace_uri_literal. Proof. unfold namespace_uri_literal. pose proof st_literal. st1. Qed.
Lemma st_decl : St never p_decl.
Proof. unfold p_decl, decl_namespace, decl_default_namespace, decl_datatypes. pose proof st_uri. pose proof st_literal. pose proof st_idkw. st1. Qed.
Lemma st_cname : St never cname. Proof. unfold cname. st1. Qed.
Lemma st_dtname : St never p_datatype_name. Proof. unfold p_datatype_name. pose proof st_cname. st1. Qed.
Lemma st_name : St never p_name. Proof. unfold p_name. pose proof st_cname. pose proof st_idkw. st1. Qed.
Lemma st_attr : St never annotation_attribute. Proof. unfold annotation_attribute. pose proof st_name. pose proof st_literal. st1. Qed.
Lemma st_elem n : St never (annotation_element n).
Proof. induction n as [|n IH]; [intros s e E; discriminate|]. cbn [annotation_element]. pose proof st_name. pose proof st_literal. pose proof st_attr. st1. Qed.
Lemma st_initial n : St never (initial_annotation n). Proof. unfold initial_annotation. pose proof st_attr. pose proof (st_elem n). st1. Qed.
Lemma st_maybe n : St never (maybe_initial_annotation n). Proof. unfold maybe_initial_annotation. pose proof (st_initial n). st1. Qed.
Lemma st_follows n : St never (follow_annotation_list n). Proof. unfold follow_annotation_list, follow_annotation. pose proof (st_elem n). st1. Qed.
Lemma st_prim_nc nc : St never nc -> St never (prim_nc nc).
Proof. intros H. unfold prim_nc, ns_name_nc, any_name_nc, paren_nc, except_nc. pose proof st_name. st1. Qed.
Lemma st_name_class n : St never (name_class n).
Proof.
  induction n as [|n IH]; [intros s e E; discriminate|]. cbn [name_class]. apply st_never_bind; [apply st_maybe|]. intros an. apply st_never_bind; [apply st_prim_nc, IH|]. intros a.
  apply st_never_bind; [apply st_follows|].
  assert (K : St never (alt_step (name_class n) a)) by (intros s e E; unfold alt_step in E; destruct (alt_nc _ s); discriminate).
  intros [|f fl]; [|destruct an; [|intros s e E; discriminate]]; exact K.
Qed.
Lemma st_inherit : St never opt_inherit. Proof. unfold opt_inherit, inherit. pose proof st_idkw. st1. Qed.
Lemma st_method : St never assign_method. Proof. unfold assign_method. st1. Qed.
Lemma st_param n : St never (p_param n). Proof. unfold p_param. pose proof (st_maybe n). pose proof st_idkw. pose proof st_literal. st1. Qed.

(** ** Parsers that do not err *)
Lemma no_err {A} (e : parser A) p : Sim e p -> (forall s, p s <> CompactParse.PErr) -> Se never e.
Proof. intros H K s x E. destruct (K s). rewrite <- (H s), E. reflexivity. Qed.
Lemma many_no_err {A} (p : CompactParse.parser A) : (forall n, CompactTotal.T true n p) -> forall m s, CompactParse.many_loop m p s <> CompactParse.PErr.
Proof.
  intros T. induction m as [|m IH]; intros s; [discriminate|]. cbn. pose proof (T (S (List.length s)) s (Nat.lt_succ_diag_r _)) as H.
  destruct (p s) as [a r| | | | |]; try discriminate. destruct (Nat.eqb_spec (List.length r) (List.length s)); [destruct H as [_ H]; lia|].
  specialize (IH r). destruct (CompactParse.many_loop m p r); congruence.
Qed.
Lemma sep_no_err {A B} (sep : CompactParse.parser B) (p : CompactParse.parser A) :
  (forall s b r, sep s = CompactParse.POk b r -> List.length r <= List.length s) ->
  (forall s a r, p s = CompactParse.POk a r -> List.length r < List.length s) -> forall m s, CompactParse.sep_loop m sep p s <> CompactParse.PErr.
Proof.
  intros K H. induction m as [|m IH]; intros s; [discriminate|]. cbn. specialize (K s). destruct (sep s) as [b r| | | | |]; try discriminate. specialize (K b r eq_refl).
  specialize (H r). destruct (p r) as [a r2| | | | |]; try discriminate. specialize (H a r2 eq_refl). destruct (Nat.eqb_spec (List.length r2) (List.length s)); [lia|].
  specialize (IH r2). destruct (CompactParse.sep_loop m sep p r2); congruence.
Qed.
Lemma sep0_no_err {A B} (sep : CompactParse.parser B) (p : CompactParse.parser A) :
  (forall s b r, sep s = CompactParse.POk b r -> List.length r <= List.length s) ->
  (forall s a r, p s = CompactParse.POk a r -> List.length r < List.length s) -> forall s, CompactParse.psep0 sep p s <> CompactParse.PErr.
Proof.
  intros K H s. unfold CompactParse.psep0. destruct (p s) as [a r| | | | |]; try discriminate. pose proof (sep_no_err sep p K H (S (List.length r)) r) as E.
  destruct (CompactParse.sep_loop _ sep p r); congruence.
Qed.
Lemma sc0_len s u r : CompactParse.sc0 s = CompactParse.POk u r -> List.length r <= List.length s.
Proof. intros H. apply sc0_inv in H as (g & -> & _). rewrite app_length. lia. Qed.
Lemma sc1_len s u r : CompactParse.sc1 s = CompactParse.POk u r -> List.length r <= List.length s.
Proof. intros H. apply sc1_inv in H as (g & -> & _). rewrite app_length. lia. Qed.
Lemma se_sc0 : Se never sc0.
Proof.
  apply (no_err _ _ sim_sc0). intros s. unfold CompactParse.sc0, CompactParse.pbind, CompactParse.pmany0.
  pose proof (many_no_err CompactParse.space_or_comment CompactTotal.T_soc (S (List.length s)) s) as H. destruct (CompactParse.many_loop _ _ s); try discriminate. congruence.
Qed.
Lemma se_follows n : Se never (follow_annotation_list n).
Proof.
  apply (no_err _ _ (sim_follows n)). intros s. apply sep0_no_err; [apply sc0_len|]. intros x a r H. apply follow1_inv in H as (g1 & g2 & t & -> & _).
  rewrite !app_length. cbn [lit List.length]. change (List.length (lit ">>")) with 2. lia.
Qed.
Lemma se_decls : Se never (psep0 sc1 p_decl).
Proof.
  apply (no_err _ _ (sim_sep0 _ _ _ _ sim_sc1 sim_decl)). intros s. apply sep0_no_err; [apply sc1_len|]. intros x a r H.
  pose proof (CompactTotal.T_decl (S (List.length x)) x (Nat.lt_succ_diag_r _)) as T. rewrite H in T. apply T. reflexivity.
Qed.

(** ** What the parsers read *)
Lemma e_tag k : EReads (fun _ t => t = k) (ptag k).
Proof. apply (reads _ _ _ (sim_tag k)). intros s a r H. apply tag_inv in H as ->. eauto. Qed.
Lemma e_sc0 : EReads (fun _ => Gap) sc0.
Proof. apply (reads _ _ _ sim_sc0). intros s a r H. apply sc0_inv in H. exact H. Qed.
Lemma e_sc1 : EReads (fun _ => Gap1) sc1.
Proof. apply (reads _ _ _ sim_sc1). intros s a r H. apply sc1_inv in H. exact H. Qed.
Lemma e_literal : EReads Lit p_literal.
Proof. exact (reads _ _ _ sim_literal literal_inv). Qed.
Lemma e_identifier : EReads (fun i t => t = i /\ Ident i) identifier.
Proof. apply (reads _ _ _ sim_identifier). intros s a r H. apply identifier_inv in H as [-> H]. eauto. Qed.
Lemma e_dtname : EReads DtName p_datatype_name.
Proof. exact (reads _ _ _ sim_dtname dtname_inv). Qed.
Lemma e_maybe n : EReads Ann (maybe_initial_annotation n).
Proof. exact (reads _ _ _ (sim_maybe n) (maybe_inv n)). Qed.
Lemma e_follows n : EReads (fun _ => Follows) (follow_annotation_list n).
Proof. apply (reads _ _ _ (sim_follows n)). intros s a r H. apply follows_inv in H as (f & -> & H & _). eauto. Qed.
Lemma e_name_class n : EReads Nc (name_class n).
Proof. exact (reads _ _ _ (sim_name_class n) (name_class_inv n)). Qed.
Lemma e_inherit : EReads Inherit opt_inherit.
Proof. exact (reads _ _ _ sim_inherit inherit_inv). Qed.
Lemma e_method : EReads Method assign_method.
Proof. exact (reads _ _ _ sim_method method_inv). Qed.
Lemma e_param n : EReads Param (p_param n).
Proof. exact (reads _ _ _ (sim_param n) (param_inv n)). Qed.
Lemma e_sep0 {A} (X : A -> str -> Prop) p q : Sim p q -> Reads X q -> EReads (Seq X) (psep0 sc1 p).
Proof. intros H K. exact (reads _ _ _ (sim_sep0 _ _ _ _ sim_sc1 H) (sep0_inv _ _ K)). Qed.
Lemma e_opt {A} (X : A -> str -> Prop) p : EReads X p -> EReads (fun o t => match o with Some a => X a t | None => t = [] end) (popt p).
Proof.
  intros H s a r E. unfold popt in E. destruct (p s) as [b r'| | | | |] eqn:Ep; try discriminate; injection E as <- <-; [apply H; exact Ep|]. exists []. auto.
Qed.
Lemma e_cut {A} (X : A -> str -> Prop) p : EReads X p -> EReads X (pcut p).
Proof. intros H s a r E. unfold pcut in E. destruct (p s) eqn:Ep; try discriminate. injection E as <- <-. apply H. exact Ep. Qed.
Lemma e_bind {A B} (X : A -> str -> Prop) (Z : B -> str -> Prop) (p : parser A) (f : A -> parser B) :
  EReads X p -> (forall a t, X a t -> EReads (fun b u => Z b (t ++ u)) (f a)) -> EReads Z (pbind p f).
Proof.
  intros H K s b r E. unfold pbind in E. destruct (p s) as [a r1| | | | |] eqn:Ep; try discriminate. apply H in Ep as (t & -> & T). apply (K a t T) in E as (u & -> & U).
  exists (t ++ u). split; [apply app_assoc | exact U].
Qed.
Lemma e_ret {A} (X : A -> str -> Prop) a : X a [] -> EReads X (pret a).
Proof. intros H s b r E. injection E as <- <-. exists []. auto. Qed.

(** ** Beginnings *)
(** some text of [X] begins with [u] *)
Definition V {A} (X : A -> str -> Prop) (u : str) : Prop := exists t a, X a (u ++ t).
Lemma v_intro {A} (X : A -> str -> Prop) a w u t : X a w -> w = u ++ t -> V X u.
Proof. intros H ->. exists t, a. exact H. Qed.
Lemma empty_pat : Pat SEmpty (lit "empty").
Proof.
  change (lit "empty") with ([] ++ lit "empty" ++ [] ++ @nil N). eapply Pt_postfix; [constructor | apply Pr_plain; constructor | constructor | constructor].
Qed.
Lemma v_pat_nil : V Pat [].
Proof. exact (v_intro _ _ _ [] _ empty_pat eq_refl). Qed.
Lemma v_prim_pat i an u : Ann i an -> V Prim u -> V Pat (an ++ u).
Proof.
  intros Ha (t & a & H). eapply v_intro with (t := t); [eapply (Pt_postfix i an a (u ++ t) [] a []); [exact Ha | exact H | constructor | constructor]|].
  rewrite !app_nil_r. apply app_assoc.
Qed.
(** a list of items, the last of which is only begun *)
Definition Seq1 {A} (X : A -> str -> Prop) (l : list A) (w : str) : Prop := l <> [] /\ Seq X l w.
Lemma v_cons {A} (X : A -> str -> Prop) x w g u : X x w -> Gap1 g -> V (Seq1 X) u -> V (Seq1 X) (w ++ g ++ u).
Proof.
  intros Hx G (t & l & N & H). eapply v_intro; [split; [|eapply (Seq_cons X x w g l); [exact Hx | exact G | exact N | exact H]]; discriminate|].
  rewrite <- !app_assoc. reflexivity.
Qed.
Lemma v_one {A} (X : A -> str -> Prop) u : V X u -> V (Seq1 X) u.
Proof. intros (t & a & H). exists t, [a]. split; [discriminate | apply Seq_one; exact H]. Qed.
Lemma st_sep_loop {A} (X : A -> str -> Prop) (p : parser A) : EReads X p -> St (V X) p ->
  forall n s e, sep_loop n sc1 p s = PFail e -> forall x w, X x w -> exists u, s = u ++ e /\ V (Seq1 X) (w ++ u).
Proof.
  intros R H. induction n as [|n IH]; intros s e E x w Hw; [discriminate|]. cbn [sep_loop] in E. destruct (sc1 s) as [b r| | | | |] eqn:Es; try discriminate.
  - apply e_sc1 in Es as (g & -> & G). destruct (p r) as [a r2| | | | |] eqn:Ep; try discriminate.
    + destruct (_ =? _); [discriminate|]. destruct (sep_loop n sc1 p r2) eqn:Em; try discriminate. injection E as <-. apply R in Ep as (t & -> & T).
      destruct (IH _ _ Em a t T) as (u & -> & V2). exists (g ++ t ++ u). split; [rewrite <- !app_assoc; reflexivity|]. eapply v_cons; [exact Hw | exact G | exact V2].
    + injection E as <-. apply H in Ep as (u & -> & U). exists (g ++ u). split; [apply app_assoc|]. eapply v_cons; [exact Hw | exact G | apply v_one, U].
  - apply st_sc1 in Es as (? & _ & []).
Qed.
Lemma st_sep0 {A} (X : A -> str -> Prop) (p : parser A) : EReads X p -> St (V X) p -> St (V (Seq1 X)) (psep0 sc1 p).
Proof.
  intros R H s e E. unfold psep0 in E. destruct (p s) as [a r| | | | |] eqn:Ep; try discriminate.
  - destruct (sep_loop _ sc1 p r) eqn:Em; try discriminate. injection E as <-. apply R in Ep as (t & -> & T). destruct (st_sep_loop X p R H _ _ _ Em a t T) as (u & -> & U).
    exists (t ++ u). split; [apply app_assoc | exact U].
  - injection E as <-. apply H in Ep as (u & -> & U). exists u. split; [reflexivity | apply v_one, U].
Qed.
Lemma st_sep1 {A} (X : A -> str -> Prop) (p : parser A) : EReads X p -> St (V X) p -> St (V (Seq1 X)) (psep1 sc1 p).
Proof.
  intros R H s e E. unfold psep1, pbind in E. destruct (p s) as [a r| | | | |] eqn:Ep; try discriminate.
  - destruct (sep_loop _ sc1 p r) eqn:Em; try discriminate. injection E as <-. apply R in Ep as (t & -> & T). destruct (st_sep_loop X p R H _ _ _ Em a t T) as (u & -> & U).
    exists (t ++ u). split; [apply app_assoc | exact U].
  - injection E as <-. apply H in Ep as (u & -> & U). exists u. split; [reflexivity | apply v_one, U].
Qed.

Section Bodies.
Variables (n : nat) (R : rules) (R' : CompactParse.rules).
Hypothesis HR : SimR R R'.
Hypothesis HP : ReadsPat (CompactParse.r_pattern R').
Hypothesis HG : Reads GItem (CompactParse.r_grammar R').
Hypothesis HI : Reads IItem (CompactParse.r_include R').
Hypothesis SP : St (V Pat) (r_pattern R).
Hypothesis EP : Se (V Pat) (r_pattern R).
Hypothesis SG : St (V GItem) (r_grammar R).
Hypothesis SI : St (V IItem) (r_include R).
Let eP : EReads Pat (r_pattern R) := reads _ _ _ (proj1 HR) (HPt R' HP).
Let eG : EReads GItem (r_grammar R) := reads _ _ _ (proj1 (proj2 HR)) HG.
Let eI : EReads IItem (r_include R) := reads _ _ _ (proj2 (proj2 HR)) HI.

(** one step of a sequence whose head cannot fail *)
Ltac skip L S x t T := eapply st_bind; [exact L | apply never_st; exact S | intros x t T; cbn beta in T ].
Ltac tagged k := eapply st_bind; [apply (e_tag k) | apply st_tag | intros ? ? -> ].
Ltac gap g G := eapply st_bind; [exact e_sc0 | apply never_st; exact st_sc0 | intros ? g G; cbn beta in G].
Ltac gap1 g G := eapply st_bind; [exact e_sc1 | apply never_st; exact st_sc1 | intros ? g G; cbn beta in G].
Ltac txt := cbn beta; rewrite <- ?app_assoc, ?app_nil_r; try reflexivity.
Lemma st_braces {A} (Y : str -> Prop) (a : A) : Y [] -> St Y (pcut (ptag (lit "}")) ;* pret a).
Proof.
  intros H. eapply st_bind; [apply e_cut, e_tag | apply st_cut; [apply st_tag | apply se_tag, H] | intros; apply st_ret].
Qed.
Lemma st_cutp (Y : str -> Prop) : (forall u, V Pat u -> Y u) -> St Y (pcut (r_pattern R)).
Proof. intros H. apply st_cut; [eapply st_weak; [exact H | exact SP] | eapply se_weak; [exact H | exact EP]]. Qed.

Lemma st_named c k : NamedKw c k -> St (V Prim) (named_pattern n R k c).
Proof.
  intros Hk. unfold named_pattern. tagged k. gap1 g1 G1. skip (e_name_class n) (st_name_class n) nc0 s Hs. gap g2 G2. tagged (lit "{"). gap g3 G3.
  eapply st_bind; [apply e_cut, eP | |].
  - apply st_cutp. intros u (t & p & U). exists (t ++ lit "}"), (c nc0 p). pose proof (Pr_named c k nc0 g1 s g2 g3 p (u ++ t) [] Hk G1 Hs G2 G3 U Gap_nil) as H. txt. revert H. txt. auto.
  - intros p t T. gap g4 G4. apply st_braces. exists (lit "}"), (c nc0 p). pose proof (Pr_named c k nc0 g1 s g2 g3 p t g4 Hk G1 Hs G2 G3 T G4) as H. txt. revert H. txt. auto.
Qed.
Lemma st_braced c k : BracedKw c k -> St (V Prim) (braced_pattern R k c).
Proof.
  intros Hk. unfold braced_pattern. tagged k. gap g1 G1. tagged (lit "{"). gap g2 G2. eapply st_bind; [apply e_cut, eP | |].
  - apply st_cutp. intros u (t & p & U). exists (t ++ lit "}"), (c p). pose proof (Pr_braced c k g1 g2 p (u ++ t) [] Hk G1 G2 U Gap_nil) as H. txt. revert H. txt. auto.
  - intros p t T. gap g3 G3. apply st_braces. exists (lit "}"), (c p). pose proof (Pr_braced c k g1 g2 p t g3 Hk G1 G2 T G3) as H. txt. revert H. txt. auto.
Qed.
Lemma st_grammar_pattern : St (V Prim) (grammar_pattern R).
Proof.
  unfold grammar_pattern. tagged (lit "grammar"). gap g1 G1. tagged (lit "{"). gap g2 G2.
  eapply st_bind; [exact (e_sep0 GItem _ _ (proj1 (proj2 HR)) HG) | |].
  - eapply st_weak; [|apply st_sep0; [exact eG | exact SG]]. intros u (t & l & _ & U). exists (t ++ lit "}"), (SGrammar l).
    pose proof (Pr_grammar g1 g2 l (u ++ t) [] G1 G2 U Gap_nil) as H. txt. revert H. txt. auto.
  - intros l t T. gap g3 G3. apply st_braces. exists (lit "}"), (SGrammar l). pose proof (Pr_grammar g1 g2 l t g3 G1 G2 T G3) as H. txt. revert H. txt. auto.
Qed.
Lemma v_group g1 u : Gap g1 -> V Pat u -> V Prim (lit "(" ++ g1 ++ u).
Proof. intros G1 (t & p & U). exists (t ++ lit ")"), (SGroup p). pose proof (Pr_group g1 p (u ++ t) [] G1 U Gap_nil) as H. txt. revert H. txt. auto. Qed.
Lemma st_group : St (V Prim) (group_pattern R).
Proof.
  unfold group_pattern. tagged (lit "("). gap g1 G1. eapply st_bind; [exact eP | |].
  - eapply st_weak; [|exact SP]. intros u U. exact (v_group g1 u G1 U).
  - intros p t T. gap g2 G2. eapply st_bind; [apply e_tag | apply st_tag | intros; apply st_ret].
Qed.
Lemma v_prim_nil : V Prim [].
Proof. exact (v_intro _ _ _ [] _ (Pr_plain SEmpty _ Pk_empty) eq_refl). Qed.
Lemma se_group : Se (V Prim) (group_pattern R).
Proof.
  unfold group_pattern. eapply se_bind; [apply e_tag | apply se_tag, v_prim_nil | intros ? ? ->]. eapply se_bind; [apply e_sc0 | apply never_se, se_sc0 | intros ? g1 G1].
  eapply se_bind; [exact eP | |].
  - eapply se_weak; [|exact EP]. intros u U. exact (v_group g1 u G1 U).
  - intros p t T. eapply se_bind; [apply e_sc0 | apply never_se, se_sc0 | intros ? g2 G2]. eapply se_bind; [apply e_tag | | intros; apply se_ret]. apply se_tag.
    exists (lit ")"), (SGroup p). pose proof (Pr_group g1 p t g2 G1 T G2) as H. txt. revert H. txt. auto.
Qed.
Lemma e_params : EReads (fun l t => Params (Some l) t) (params n).
Proof.
  unfold params. eapply e_bind; [apply e_sc0|]. intros ? g1 G1. eapply e_bind; [apply e_tag|]. intros ? ? ->. eapply e_bind; [apply e_sc0|]. intros ? g2 G2.
  eapply e_bind; [exact (e_sep0 Param _ _ (sim_param n) (param_inv n))|]. intros l t T. eapply e_bind; [apply e_sc0|]. intros ? g3 G3.
  eapply e_bind; [apply e_cut, e_tag|]. intros ? ? ->. apply e_ret. cbn beta. rewrite app_nil_r. constructor; assumption.
Qed.
Lemma st_params : St (fun u => exists l t, Params (Some l) (u ++ t)) (params n).
Proof.
  unfold params. gap g1 G1. tagged (lit "{"). gap g2 G2.
  skip (e_sep0 Param _ _ (sim_param n) (param_inv n)) (st_never_sep0 _ _ st_sc1 (st_param n)) l t T. gap g3 G3. apply st_braces.
  exists l, (lit "}"). pose proof (Ps_some g1 g2 l t g3 G1 G2 T G3) as H. txt. revert H. txt. auto.
Qed.
Lemma e_except : EReads (fun o w => match o with None => w = [] | Some e => exists g1 g2 t, Gap g1 /\ Gap g2 /\ Pat e t /\ w = g1 ++ lit "-" ++ g2 ++ t end) (popt (sc0 ;* except_pattern R)).
Proof.
  apply (e_opt (fun e w => exists g1 g2 t, Gap g1 /\ Gap g2 /\ Pat e t /\ w = g1 ++ lit "-" ++ g2 ++ t)). eapply e_bind; [apply e_sc0|]. intros ? g1 G1. unfold except_pattern. eapply e_bind; [apply e_tag|]. intros ? ? ->. eapply e_bind; [apply e_sc0|]. intros ? g2 G2.
  intros s x r H. apply eP in H as (t & -> & T). exists t. split; [reflexivity|]. exists g1, g2, t. auto.
Qed.
Lemma st_data : St (V Prim) (datatype_param_pattern n R).
Proof.
  unfold datatype_param_pattern. skip e_dtname st_dtname d s D. eapply st_bind; [apply e_opt, e_params | |].
  - apply st_opt. eapply st_weak; [|exact st_params]. intros u (l & t & U). exists t, (SData d (Some l) None). pose proof (Pr_data d s _ _ D U) as H. txt. auto.
  - intros ps t T. assert (T' : Params ps t) by (destruct ps; [exact T | subst; constructor]). clear T.
    eapply st_bind; [exact e_except | apply st_opt | intros; apply st_ret].
    gap g1 G1. unfold except_pattern. tagged (lit "-"). gap g2 G2. eapply st_weak; [|exact SP].
    intros u (t2 & e & U). exists t2, (SData d ps (Some e)). pose proof (Pr_except d s ps t g1 g2 e (u ++ t2) I D T' G1 G2 U) as H. txt. revert H. txt. auto.
Qed.
Lemma st_prim : St (V Prim) (prim n R).
Proof.
  unfold prim. apply st_or; [apply st_named; constructor|]. apply st_or; [apply st_named; constructor|]. apply st_or; [apply st_braced; constructor|]. apply st_or; [apply st_braced; constructor|].
  apply st_or; [apply never_st; unfold datatype_value_pattern; pose proof st_dtname; pose proof st_literal; st1|]. apply st_or; [exact st_data|].
  do 5 (apply st_or; [apply never_st; pose proof st_identifier; st1|]).
  apply st_or; [apply never_st; unfold external_pattern; pose proof st_literal; pose proof st_inherit; st1|].
  apply st_or; [exact st_grammar_pattern | exact st_group].
Qed.
Lemma se_prim : Se (V Prim) (prim n R).
Proof. unfold prim. do 13 apply se_or. exact se_group. Qed.

(** ** The operators *)
(** the beginning of a pattern whose first part and operators are [b] *)
Lemma looks_e k i : looks_at k i = true -> exists j, i = k ++ j.
Proof. unfold looks_at. destruct (ptag k i) as [x r| | | | |] eqn:E; try discriminate. intros _. apply e_tag in E as (t & -> & ->). eauto. Qed.
Definition Ends (a : spat) (u : str) : Prop :=
  exists q o, Postfixes a q o /\ exists c op g1 g2 w, InfixOp c op /\ Gap g1 /\ Gap g2 /\ V Pat w /\ u = o ++ g1 ++ op ++ g2 ++ w.
Lemma v_ends i an p s f u : Ann i an -> Prim p s -> Follows f -> Ends p u -> V Pat (an ++ s ++ f ++ u).
Proof.
  intros Ha Hp Hf (q & o & Hq & c & op & g1 & g2 & w & Hop & G1 & G2 & (t & r & W) & ->). exists t, (c q r).
  pose proof (Pt_infix i an p s f q o g1 g2 c op r (w ++ t) Ha Hp Hf Hq G1 Hop G2 W) as H. txt. auto.
Qed.

Lemma loop_stopped m a s : Stop s -> (forall e, op_loop R m a s <> PErr e) /\ (forall e, op_loop R m a s <> PFail e).
Proof.
  intros (i & E & H1 & H2 & H3 & H4 & H5 & H6). pose proof (sim_loop R R' HR m a s) as K. destruct m as [|m]; [split; intros e; discriminate|].
  cbn [CompactParse.op_loop] in K. rewrite E, H1, H2, H3, H4, H5, H6 in K. split; intros e X; rewrite X in K; discriminate.
Qed.
Lemma tag_app k j : ptag k (k ++ j) = POk tt j.
Proof.
  unfold ptag. replace (strip k (k ++ j)) with (Some j); [reflexivity|]. induction k as [|x k IH]; [reflexivity|]. cbn. rewrite N.eqb_refl. exact IH.
Qed.
Definition operand (c : spat -> spat -> spat) (a : spat) : parser spat := sc0 ;* let* b := r_pattern R in pret (c a b).
Lemma infix_after op c a j : infix R op c a (op ++ j) = operand c a j.
Proof. unfold infix. unfold pbind at 1. rewrite tag_app. reflexivity. Qed.
Definition Opd (u : str) : Prop := exists g2 w, Gap g2 /\ V Pat w /\ u = g2 ++ w.
Lemma st_operand c a : St Opd (operand c a).
Proof. unfold operand. gap g G. eapply st_bind; [exact eP | | intros; apply st_ret]. eapply st_weak; [|exact SP]. intros u U. exists g, u. auto. Qed.
Lemma se_operand c a : Se Opd (operand c a).
Proof.
  unfold operand. eapply se_bind; [exact e_sc0 | apply never_se, se_sc0 | intros ? g G]. eapply se_bind; [exact eP | | intros; apply se_ret]. eapply se_weak; [|exact EP].
  intros u U. exists g, u. auto.
Qed.
Lemma operand_stop c a j p r : operand c a j = POk p r -> Stop r.
Proof.
  intros H. unfold operand, pbind in H. destruct (sc0 j) as [x j2| | | | |]; try discriminate. destruct (r_pattern R j2) as [b r2| | | | |] eqn:E; try discriminate. injection H as <- <-.
  pose proof (proj1 HR j2) as K. rewrite E in K. symmetry in K. apply HP in K as [K _]. exact K.
Qed.
Lemma ends_infix m a c op g i e : InfixOp c op -> Gap g -> looks_at op i = true ->
  (let* p := infix R op c a in op_loop R m p) i = PFail e \/ (let* p := infix R op c a in op_loop R m p) i = PErr e -> exists u, g ++ i = u ++ e /\ Ends a u.
Proof.
  intros Hop G L E. apply looks_e in L as (j & ->). unfold pbind in E. rewrite infix_after in E.
  assert (Q : exists v, j = v ++ e /\ Opd v).
  { destruct (operand c a j) as [p r| | | | |] eqn:Eo.
    - apply operand_stop in Eo. destruct (loop_stopped m p r Eo) as [H1 H2]. destruct E as [E | E]; [destruct (H2 _ E) | destruct (H1 _ E)].
    - destruct E as [E | E]; [discriminate|]. injection E as <-. exact (se_operand c a _ _ Eo).
    - destruct E as [E | E]; [|discriminate]. injection E as <-. exact (st_operand c a _ _ Eo).
    - destruct E; discriminate.
    - destruct E; discriminate.
    - destruct E; discriminate. }
  destruct Q as (v & -> & g2 & w & G2 & W & ->). exists (g ++ op ++ g2 ++ w). split; [txt|]. exists a, []. split; [constructor|]. exists c, op, g, g2, w. auto 10.
Qed.
Lemma ends_postfix m a c op g i e : (forall a', (forall s e, op_loop R m a' s = PFail e \/ op_loop R m a' s = PErr e -> exists u, s = u ++ e /\ Ends a' u)) ->
  PostfixOp c op -> Gap g -> looks_at op i = true ->
  (let* p := postfix op c a in op_loop R m p) i = PFail e \/ (let* p := postfix op c a in op_loop R m p) i = PErr e -> exists u, g ++ i = u ++ e /\ Ends a u.
Proof.
  intros IH Hop G L E. apply looks_e in L as (j & ->). unfold postfix, pbind in E. rewrite tag_app in E. cbn [pret] in E. unfold pret in E. apply IH in E as (u & -> & q & o & Ho & Hr).
  exists (g ++ op ++ u). split; [txt|]. exists q, (g ++ op ++ o). split; [econstructor; eassumption|]. destruct Hr as (c2 & op2 & g1 & g2 & w & H1 & H2 & H3 & H4 & ->).
  exists c2, op2, g1, g2, w. repeat split; try assumption. txt.
Qed.
Lemma ends_loop : forall m a s e, op_loop R m a s = PFail e \/ op_loop R m a s = PErr e -> exists u, s = u ++ e /\ Ends a u.
Proof.
  induction m as [|m IH]; intros a s e E; [destruct E; discriminate|]. cbn [op_loop] in E. destruct (sc0 s) as [x i|x|x| | |] eqn:Es.
  - apply e_sc0 in Es as (g & -> & G). cbn beta in G.
    destruct (looks_at (lit ",") i) eqn:L1; [exact (ends_infix m a _ _ g i e Io_group G L1 E)|]. destruct (looks_at (lit "&") i) eqn:L2; [exact (ends_infix m a _ _ g i e Io_interleave G L2 E)|].
    destruct (looks_at (lit "|") i) eqn:L3; [exact (ends_infix m a _ _ g i e Io_choice G L3 E)|]. destruct (looks_at (lit "?") i) eqn:L4; [exact (ends_postfix m a _ _ g i e IH Po_opt G L4 E)|].
    destruct (looks_at (lit "*") i) eqn:L5; [exact (ends_postfix m a _ _ g i e IH Po_zero G L5 E)|]. destruct (looks_at (lit "+") i) eqn:L6; [exact (ends_postfix m a _ _ g i e IH Po_one G L6 E)|].
    destruct E; discriminate.
  - apply se_sc0 in Es as (? & _ & []).
  - apply st_sc0 in Es as (? & _ & []).
  - destruct E; discriminate.
  - destruct E; discriminate.
  - destruct E; discriminate.
Qed.
Lemma e_prim : EReads Prim (prim n R).
Proof. exact (reads _ _ _ (sim_prim n R R' HR) (prim_inv n R' HP HG)). Qed.
Lemma st_pattern : St (V Pat) (pattern_body n R).
Proof.
  unfold pattern_body. skip (e_maybe n) (st_maybe n) i0 an Ha. eapply st_bind; [exact e_prim | |].
  - eapply st_weak; [|exact st_prim]. intros u U. exact (v_prim_pat _ _ _ Ha U).
  - intros p t T. skip (e_follows n) (st_follows n) fl f F. intros s e E. destruct (ends_loop _ _ _ _ (or_introl E)) as (u & -> & U). exists u. split; [reflexivity|].
    exact (v_ends _ _ _ _ _ _ Ha T F U).
Qed.
Lemma se_pattern : Se (V Pat) (pattern_body n R).
Proof.
  unfold pattern_body. eapply se_bind; [exact (e_maybe n) | apply se_opt | intros i0 an Ha]. eapply se_bind; [exact e_prim | |].
  - eapply se_weak; [|exact se_prim]. intros u U. exact (v_prim_pat _ _ _ Ha U).
  - intros p t T. eapply se_bind; [exact (e_follows n) | apply never_se, se_follows | intros fl f F]. intros s e E. destruct (ends_loop _ _ _ _ (or_intror E)) as (u & -> & U).
    exists u. split; [reflexivity|]. exact (v_ends _ _ _ _ _ _ Ha T F U).
Qed.

(** ** Grammar contents *)
Lemma st_assignment {A} (X : A -> str -> Prop) (Nm : str -> str -> Prop) name (c : str -> method -> spat -> A) an :
  EReads Nm name -> St never name ->
  (forall nm w g1 h m g2 p s, Nm nm w -> Gap g1 -> Method h m -> Gap g2 -> Pat p s -> X (c nm h p) (an ++ w ++ g1 ++ m ++ g2 ++ s)) ->
  St (fun u => V X (an ++ u)) (assignment R name c).
Proof.
  intros HN SN HX. unfold assignment. skip HN SN nm w W. gap g1 G1. skip e_method st_method h m M. gap g2 G2. eapply st_bind; [apply e_cut, eP | apply st_cutp | intros; apply st_ret].
  intros u (t & p & U). exists t, (c nm h p). pose proof (HX nm w g1 h m g2 p (u ++ t) W G1 M G2 U) as H. txt. auto.
Qed.
Lemma e_start : EReads (fun nm w => nm = lit "start" /\ w = lit "start") start_name.
Proof. unfold start_name, pmap. eapply e_bind; [apply e_tag|]. intros ? ? ->. apply e_ret. rewrite app_nil_r. auto. Qed.
Lemma st_start : St never start_name. Proof. unfold start_name. st. Qed.
Lemma st_div {A B} (X : A -> str -> Prop) (Z : B -> str -> Prop) item item' (c : list A -> B) an :
  Sim item item' -> Reads X item' -> St (V X) item ->
  (forall g1 g2 l s g3, Gap g1 -> Gap g2 -> Seq X l s -> Gap g3 -> Z (c l) (an ++ lit "div" ++ g1 ++ lit "{" ++ g2 ++ s ++ g3 ++ lit "}")) ->
  St (fun u => V Z (an ++ u)) (div_content item c).
Proof.
  intros HS HX SX HZ. unfold div_content. tagged (lit "div"). gap g1 G1. tagged (lit "{"). gap g2 G2. eapply st_bind; [exact (e_sep0 X _ _ HS HX) | |].
  - eapply st_weak; [|apply st_sep0; [exact (reads _ _ _ HS HX) | exact SX]]. intros u (t & l & _ & U). exists (t ++ lit "}"), (c l).
    pose proof (HZ g1 g2 l (u ++ t) [] G1 G2 U Gap_nil) as H. txt. revert H. txt. auto.
  - intros l t T. gap g3 G3. apply st_braces. exists (lit "}"), (c l). pose proof (HZ g1 g2 l t g3 G1 G2 T G3) as H. txt. revert H. txt. auto.
Qed.
Lemma st_overrides : St (fun u => exists t g1 g2 ov w g3, Gap g1 /\ Gap g2 /\ Seq IItem ov w /\ Gap g3 /\ u ++ t = g1 ++ lit "{" ++ g2 ++ w ++ g3 ++ lit "}") (overrides R).
Proof.
  unfold overrides. gap g1 G1. tagged (lit "{"). gap g2 G2. eapply st_bind; [exact (e_sep0 IItem _ _ (proj2 (proj2 HR)) HI) | |].
  - eapply st_weak; [|apply st_sep0; [exact eI | exact SI]]. intros u (t & l & _ & U). exists (t ++ lit "}"), g1, g2, l, (u ++ t), []. repeat split; try assumption; [constructor|]. txt.
  - intros l t T. gap g3 G3. apply st_braces. exists (lit "}"), g1, g2, l, t, g3. repeat split; try assumption. txt.
Qed.
Lemma st_include : St (V GItem) (include_ R).
Proof.
  unfold include_. tagged (lit "include"). gap1 g G. skip e_literal st_literal l s L. skip e_inherit st_inherit ih t T. eapply st_bind with (X := fun _ _ => True).
  - intros x y r E. unfold popt in E. destruct (overrides R x) as [b r2| | | | |] eqn:Eo; try discriminate; injection E as <- <-.
    + assert (K : EReads (fun _ _ => True) (overrides R)).
      { unfold overrides. eapply e_bind; [apply e_sc0|]. intros. eapply e_bind; [apply e_tag|]. intros. eapply e_bind; [apply e_sc0|]. intros.
        eapply e_bind; [exact (e_sep0 IItem _ _ (proj2 (proj2 HR)) HI)|]. intros. eapply e_bind; [apply e_sc0|]. intros. eapply e_bind; [apply e_cut, e_tag|]. intros. apply e_ret. exact I. }
      apply K in Eo. exact Eo.
    + exists []. auto.
  - apply st_opt. eapply st_weak; [|exact st_overrides]. intros u (t2 & g1 & g2 & ov & w & g3 & G1 & G2 & W & G3 & E). exists t2, (GInclude l ih (Some ov)).
    pose proof (Gi_include_over g l s ih t g1 g2 ov w g3 G L T G1 G2 W G3) as H. rewrite <- E in H. txt. auto.
  - intros. apply st_ret.
Qed.
Lemma v_nil {A} (X : A -> str -> Prop) (p : parser A) : St (fun u => V X ([] ++ u)) p -> St (V X) p.
Proof. intros H. exact H. Qed.
Lemma st_grammar : St (V GItem) (grammar_body n R).
Proof.
  unfold grammar_body. apply st_or; [|apply st_or; [|apply st_or; [|apply st_or]]].
  - apply v_nil. eapply st_assignment; [exact e_start | exact st_start |]. intros nm w g1 h m g2 p s [-> ->] G1 M G2 Hp. exact (Gi_start h m g1 g2 p s G1 M G2 Hp).
  - apply v_nil. eapply st_assignment; [exact e_identifier | exact st_identifier |]. intros nm w g1 h m g2 p s [-> Hi] G1 M G2 Hp. exact (Gi_define nm h m g1 g2 p s Hi G1 M G2 Hp).
  - apply v_nil. eapply st_div; [exact (proj1 (proj2 HR)) | exact HG | exact SG |]. intros. apply Gi_div; assumption.
  - exact st_include.
  - apply never_st. pose proof (st_elem n). st.
Qed.
Lemma st_include_body : St (V IItem) (include_body n R).
Proof.
  unfold include_body. skip (e_maybe n) (st_maybe n) i0 an Ha. apply st_or; [|apply st_or; [|apply st_or]].
  - apply never_st. pose proof (st_elem n). st.
  - eapply st_assignment; [exact e_identifier | exact st_identifier |]. intros nm w g1 h m g2 p s [-> Hi] G1 M G2 Hp. exact (Ii_define _ an nm h m g1 g2 p s Ha Hi G1 M G2 Hp).
  - eapply st_assignment; [exact e_start | exact st_start |]. intros nm w g1 h m g2 p s [-> ->] G1 M G2 Hp. exact (Ii_start _ an h m g1 g2 p s Ha G1 M G2 Hp).
  - eapply st_div; [exact (proj2 (proj2 HR)) | exact HI | exact SI |]. intros. eapply Ii_div; eassumption.
Qed.
End Bodies.

Lemma st_parsers n : St (V Pat) (r_pattern (parsers n)) /\ Se (V Pat) (r_pattern (parsers n)) /\ St (V GItem) (r_grammar (parsers n)) /\ St (V IItem) (r_include (parsers n)).
Proof.
  induction n as [|n (H1 & H2 & H3 & H4)]; [repeat split; intros s e E; discriminate|]. destruct (parsers_inv n) as (K1 & K2 & K3). pose proof (sim_parsers n) as HR.
  cbn [parsers]. cbn zeta. cbn [r_pattern r_grammar r_include]. split; [|split; [|split]].
  - eapply st_pattern; eassumption.
  - eapply se_pattern; eassumption.
  - eapply st_grammar; eassumption.
  - eapply st_include_body; eassumption.
Qed.

(** ** Schemas *)
Lemma st_top n : St (V Top) (pmap TGrammar (psep1 sc1 (grammar_content n)) <|> pmap TPattern (pattern n)).
Proof.
  destruct (st_parsers n) as (H1 & H2 & H3 & _). destruct (parsers_inv n) as (_ & K2 & _). destruct (sim_parsers n) as (_ & S2 & _). apply st_or; apply st_map.
  - eapply st_weak; [|apply st_sep1; [exact (reads _ _ _ S2 K2) | exact H3]]. intros u (t & l & N & U). exists t, (TGrammar l). apply To_grammar; assumption.
  - eapply st_weak; [|exact H1]. intros u (t & p & U). exists t, (TPattern p). apply To_pattern; [exact U | left; exact I].
Qed.
Lemma se_top n : Se (V Top) (pmap TGrammar (psep1 sc1 (grammar_content n)) <|> pmap TPattern (pattern n)).
Proof.
  destruct (st_parsers n) as (_ & H2 & _). apply se_or, se_map. eapply se_weak; [|exact H2]. intros u (t & p & U). exists t, (TPattern p). apply To_pattern; [exact U | left; exact I].
Qed.
(** [Before u]: some text of the compact syntax begins with [u] *)
Lemma v_schema g0 ds s g1 u : Gap g0 -> Seq Decl ds s -> Gap g1 -> V Top u -> V SchemaText (g0 ++ s ++ g1 ++ u).
Proof.
  intros G0 D G1 (t & x & U). exists t, (Schema ds x). pose proof (CompactText.St g0 ds s g1 x (u ++ t) [] G0 D G1 (fun _ => or_introl I) U Gap_nil) as H.
  rewrite <- !app_assoc. rewrite ?app_nil_r, <- ?app_assoc in H. exact H.
Qed.
Lemma e_decls : EReads (Seq Decl) (psep0 sc1 p_decl).
Proof. exact (e_sep0 Decl _ _ sim_decl decl_inv). Qed.
Lemma e_or {A} (X : A -> str -> Prop) p q : EReads X p -> EReads X q -> EReads X (p <|> q).
Proof. intros H K s a r E. unfold por in E. destruct (p s) eqn:Ep; try discriminate; [injection E as <- <-; apply H; exact Ep | apply K; exact E]. Qed.
Lemma e_map {A B} (f : A -> B) p (X : A -> str -> Prop) (Z : B -> str -> Prop) : (forall a t, X a t -> Z (f a) t) -> EReads X p -> EReads Z (pmap f p).
Proof. intros H K s b r E. unfold pmap, pbind in E. destruct (p s) as [a r2| | | | |] eqn:Ep; try discriminate. injection E as <- <-. apply K in Ep as (t & -> & T). eauto. Qed.
Lemma e_top n : EReads Top (pmap TGrammar (psep1 sc1 (grammar_content n)) <|> pmap TPattern (pattern n)).
Proof.
  destruct (parsers_inv n) as (K1 & K2 & _). destruct (sim_parsers n) as (S1 & S2 & _). apply e_or.
  - apply (e_map _ _ (fun l w => l <> [] /\ Seq GItem l w)); [intros l w [N W]; apply To_grammar; assumption|].
    apply (reads _ _ _ (sim_sep1 _ _ _ _ sim_sc1 S2)). intros s l r H. apply (sep1_inv _ _ K2) in H as (N & t & -> & T). eauto.
  - apply (e_map _ _ Pat); [intros p w W; apply To_pattern; [exact W | left; exact I]|]. exact (reads _ _ _ S1 (HPt _ K1)).
Qed.
Lemma e_top_level n : EReads (fun x t => forall g0 g2, Gap g0 -> Gap g2 -> SchemaText x (g0 ++ t ++ g2)) (top_level n).
Proof.
  unfold top_level. eapply e_bind; [exact e_decls | intros ds w W]. eapply e_bind; [exact e_sc0 | intros ? g1 G1]. eapply e_bind; [exact (e_top n) | intros t u U].
  apply e_ret. intros g0 g2 G0 G2. rewrite app_nil_r. pose proof (CompactText.St g0 ds w g1 t u g2 G0 W G1 (fun _ => or_introl I) U G2) as H. rewrite <- !app_assoc. exact H.
Qed.
Lemma st_top_level n g0 : Gap g0 -> St (fun u => V SchemaText (g0 ++ u)) (top_level n).
Proof.
  intros G0. unfold top_level. eapply st_bind; [exact e_decls | apply never_st, st_never_sep0; [exact st_sc1 | exact st_decl] | intros ds w W].
  eapply st_bind; [exact e_sc0 | apply never_st, st_sc0 | intros ? g1 G1]. eapply st_bind; [exact (e_top n) | | intros; apply st_ret].
  eapply st_weak; [|exact (st_top n)]. intros u U. exact (v_schema _ _ _ _ _ G0 W G1 U).
Qed.
Lemma se_top_level n g0 : Gap g0 -> Se (fun u => V SchemaText (g0 ++ u)) (top_level n).
Proof.
  intros G0. unfold top_level. eapply se_bind; [exact e_decls | apply never_se, se_decls | intros ds w W].
  eapply se_bind; [exact e_sc0 | apply never_se, se_sc0 | intros ? g1 G1]. eapply se_bind; [exact (e_top n) | | intros; apply se_ret].
  eapply se_weak; [|exact (se_top n)]. intros u U. exact (v_schema _ _ _ _ _ G0 W G1 U).
Qed.
Definition whole n : parser schema := sc0 ;* let* x := top_level n in sc0 ;* pret x.
Lemma e_whole n : EReads SchemaText (whole n).
Proof.
  unfold whole. eapply e_bind; [exact e_sc0 | intros ? g0 G0]. eapply e_bind; [exact (e_top_level n) | intros x t T]. eapply e_bind; [exact e_sc0 | intros ? g2 G2]. apply e_ret.
  rewrite app_nil_r. exact (T g0 g2 G0 G2).
Qed.
Lemma st_whole n : St (V SchemaText) (whole n).
Proof.
  unfold whole. eapply st_bind; [exact e_sc0 | apply never_st, st_sc0 | intros ? g0 G0]. eapply st_bind; [exact (e_top_level n) | exact (st_top_level n g0 G0) | intros x t T].
  eapply st_bind; [exact e_sc0 | apply never_st, st_sc0 | intros; apply st_ret].
Qed.
Lemma se_whole n : Se (V SchemaText) (whole n).
Proof.
  unfold whole. eapply se_bind; [exact e_sc0 | apply never_se, se_sc0 | intros ? g0 G0]. eapply se_bind; [exact (e_top_level n) | exact (se_top_level n g0 G0) | intros x t T].
  eapply se_bind; [exact e_sc0 | apply never_se, se_sc0 | intros; apply se_ret].
Qed.
Lemma wrong_at n s e : p_schema n s = PErr e \/ p_schema n s = PFail e -> exists u, s = u ++ e /\ V SchemaText u.
Proof.
  intros E. unfold p_schema, all_consuming in E. fold (whole n) in E. destruct (whole n s) as [x r|a|a| | |] eqn:Ew.
  - destruct r as [|c r]; [destruct E; discriminate|]. destruct E as [[= <-]|]; [|discriminate]. apply e_whole in Ew as (t & -> & T). exists t. split; [reflexivity|].
    exists [], x. rewrite app_nil_r. exact T.
  - destruct E as [[= <-]|]; [|discriminate]. exact (se_whole n _ _ Ew).
  - destruct E as [|[= <-]]; [discriminate|]. exact (st_whole n _ _ Ew).
  - destruct E; discriminate.
  - destruct E; discriminate.
  - destruct E; discriminate.
Qed.

(** ** The span of an error *)
Lemma parse_wrong text sp : parse_where text = ParseError sp ->
  exists u e, text = u ++ e /\ sp = (N.of_nat (utf8_len u), N.of_nat (utf8_len text)) /\ exists x t, SchemaText x (u ++ t).
Proof.
  unfold parse_where. intros H.
  assert (K : forall e, p_schema (S (List.length text)) text = PErr e \/ p_schema (S (List.length text)) text = PFail e -> ParseError (error_span text e) = ParseError sp ->
    exists u e', text = u ++ e' /\ sp = (N.of_nat (utf8_len u), N.of_nat (utf8_len text)) /\ exists x t, SchemaText x (u ++ t)).
  { intros e E [= <-]. apply wrong_at in E as (u & -> & t & x & U). exists u, e. split; [reflexivity|]. split; [|eauto]. unfold error_span. rewrite CompactSpansPlace.utf8_app. f_equal; lia. }
  destruct (p_schema _ text) as [x r|e|e| | |]; try discriminate; (eapply (K e); [auto | exact H]).
Qed.

(** ** Consequences *)
Lemma mistake_not_before text start end_ good bad rest : parse_where text = ParseError (start, end_) ->
  text = good ++ bad ++ rest -> (forall x more, ~ LaxText x (good ++ bad ++ more)) ->
  (start < N.of_nat (utf8_len (good ++ bad)))%N.
Proof.
  intros H -> W. apply parse_wrong in H as (u & e & E & [= -> ->] & x & t & U). rewrite app_assoc in E.
  destruct (le_lt_dec (List.length (good ++ bad)) (List.length u)) as [L | L].
  - exfalso. assert (K : exists v, u = (good ++ bad) ++ v).
    { exists (skipn (List.length (good ++ bad)) u). rewrite <- (firstn_skipn (List.length (good ++ bad)) u) at 1. f_equal.
      apply (f_equal (firstn (List.length (good ++ bad)))) in E. rewrite firstn_app, firstn_all, Nat.sub_diag in E. cbn [firstn] in E. rewrite app_nil_r in E.
      rewrite firstn_app in E. replace (List.length (good ++ bad) - List.length u) with 0 in E by lia. cbn [firstn] in E. rewrite app_nil_r in E. symmetry. exact E. }
    destruct K as (v & ->). apply (W x (v ++ t)). rewrite <- !app_assoc in U. exact U.
  - assert (K : exists v, good ++ bad = u ++ v /\ v <> []).
    { exists (skipn (List.length u) (good ++ bad)). assert (F : firstn (List.length u) (good ++ bad) = u).
      { apply (f_equal (firstn (List.length u))) in E. rewrite firstn_app in E. replace (List.length u - List.length (good ++ bad)) with 0 in E by lia. cbn [firstn] in E. rewrite app_nil_r in E.
        rewrite E, firstn_app, firstn_all, Nat.sub_diag. cbn [firstn]. apply app_nil_r. }
      split; [rewrite <- F at 1; rewrite firstn_skipn; reflexivity|]. intros X. apply (f_equal (@List.length N)) in X. rewrite skipn_length in X. cbn in X. lia. }
    destruct K as (v & -> & N). rewrite CompactSpansPlace.utf8_app. enough (0 < utf8_len v) by lia. destruct v as [|c v]; [contradiction|]. rewrite <- (app_nil_l v), app_comm_cons, CompactSpansPlace.utf8_app.
    enough (0 < utf8_len [c]) by lia. unfold utf8_len. cbn. unfold utf8_width. repeat destruct (_ <=? _)%N; repeat destruct (_ <? _)%N; lia.
Qed.
Lemma agrees text :
  CompactParse.parse_compact text = match parse_where text with
                                    | Parsed x => CompactParse.Parsed x
                                    | ParseError _ => CompactParse.ParseError
                                    | ParsePanic p => CompactParse.ParsePanic p
                                    | ParseFuel => CompactParse.ParseFuel
                                    end.
Proof. symmetry. exact (parse_unplaced text). Qed.
Lemma every_wrong_text text : (forall x, ~ LaxText x text) ->
  (exists before rest x more, text = before ++ rest /\ LaxText x (before ++ more) /\
     parse_where text = ParseError (N.of_nat (utf8_len before), N.of_nat (utf8_len text))) \/
  exists p, parse_where text = ParsePanic p.
Proof.
  intros W. pose proof (parse_unplaced text) as A. destruct (parse_where text) as [x|sp|p|] eqn:E; cbn [unplaced] in A.
  - destruct (W x). apply schema_sound. symmetry. exact A.
  - left. apply parse_wrong in E as (u & e & -> & -> & x & t & U). exists u, e, x, t. auto.
  - right. eauto.
  - exfalso. symmetry in A. exact (CompactTotal.parse_total text A).
Qed.
Lemma not_exact : exists text before more_before rest x more,
  text = before ++ more_before ++ rest /\ more_before <> [] /\
  parse_where text = ParseError (N.of_nat (utf8_len before), N.of_nat (utf8_len text)) /\
  LaxText x (before ++ more_before ++ more).
Proof.
  eexists (lit "start = element { empty }"), (lit "start = "), (lit "element "), (lit "{ empty }"), _, (lit "a { empty }"). split; [reflexivity|]. split; [discriminate|].
  split; [vm_compute; reflexivity|]. apply schema_sound. vm_compute. reflexivity.
Qed.
Lemma not_exact_decl : exists decl_begun rest x more,
  parse_where (decl_begun ++ rest) = ParseError (0, N.of_nat (utf8_len (decl_begun ++ rest)))%N /\
  decl_begun = lit "namespace a = " /\ LaxText x (decl_begun ++ more).
Proof.
  eexists (lit "namespace a = "), (lit "b start = element a { empty }"), _, (34%N :: lit "b" ++ 34%N :: lit " start = element a { empty }"). split; [vm_compute; reflexivity|]. split; [reflexivity|].
  apply schema_sound. vm_compute. reflexivity.
Qed.
