(** * CompactSpansProof: the located parser of the compact syntax. *)
From Coq Require Import String Lia.
From Verif Require Import Base Datatype Syntax CompactParse CompactTotal SchemaCompile Located CompactSpans.

(** ** Forgetting the positions gives the parser of CompactParse.v *)
Definition rmap {A B} (f : A -> B) (x : pres A) : pres B :=
  match x with
  | POk a r => POk (f a) r
  | PErr => PErr | PFail => PFail | PInc => PInc | PPanic p => PPanic p | PFuel => PFuel
  end.
Definition sim {A B} (f : A -> B) (p : parser A) (q : parser B) : Prop := forall s, q s = rmap f (p s).

Lemma sim_bind {A B A' B'} (f : A -> A') (g : B -> B') p q k k' :
  sim f p q -> (forall a, sim g (k a) (k' (f a))) -> sim g (pbind p k) (pbind q k').
Proof. intros H K s. unfold pbind. rewrite (H s). destruct (p s); cbn; auto. apply K. Qed.
Lemma sim_same {A B B'} (g : B -> B') (p : parser A) k k' :
  (forall a, sim g (k a) (k' a)) -> sim g (pbind p k) (pbind p k').
Proof. intros K s. unfold pbind. destruct (p s); cbn; auto. apply K. Qed.
Lemma sim_here {B B'} (g : B -> B') tot k q : (forall a, sim g (k a) q) -> sim g (pbind (here tot) k) q.
Proof. intros K s. unfold pbind, here. apply K. Qed.
Lemma sim_ret {A B} (f : A -> B) a b : b = f a -> sim f (pret a) (pret b).
Proof. intros -> s. reflexivity. Qed.
Lemma sim_map {A B A' B'} (f : A -> A') (g : B -> B') h h' p q :
  sim f p q -> (forall a, h' (f a) = g (h a)) -> sim g (pmap h p) (pmap h' q).
Proof. intros H K. apply (sim_bind f); [exact H|]. intros a. apply sim_ret. apply K. Qed.
Lemma sim_map_same {A B B'} (g : B -> B') h h' (p : parser A) :
  (forall a, h' a = g (h a)) -> sim g (pmap h p) (pmap h' p).
Proof. intros K. apply sim_same. intros a. apply sim_ret. apply K. Qed.
Lemma sim_or {A B} (f : A -> B) p q p' q' : sim f p p' -> sim f q q' -> sim f (p <|> q) (p' <|> q').
Proof. intros H K s. unfold por. rewrite (H s), (K s). destruct (p s); reflexivity. Qed.
Lemma sim_opt {A B} (f : A -> B) p q : sim f p q -> sim (option_map f) (popt p) (popt q).
Proof. intros H s. unfold popt. rewrite (H s). destruct (p s); reflexivity. Qed.
Lemma sim_cut {A B} (f : A -> B) p q : sim f p q -> sim f (pcut p) (pcut q).
Proof. intros H s. unfold pcut. rewrite (H s). destruct (p s); reflexivity. Qed.
Lemma sim_spanned {A} tot (p : parser A) : sim snd (spanned tot p) p.
Proof. intros s. unfold spanned, pbind, here. destruct (p s); reflexivity. Qed.
Lemma sim_sep_loop {A B C} (f : A -> B) (sep : parser C) p q : sim f p q -> forall n s,
  sep_loop n sep q s = rmap (map f) (sep_loop n sep p s).
Proof.
  intros H. induction n as [|n IH]; intros s; [reflexivity|]. cbn [sep_loop]. destruct (sep s) as [c r| | | | |]; try reflexivity.
  rewrite (H r). destruct (p r) as [a r2| | | | |]; try reflexivity. cbn [rmap]. destruct (List.length r2 =? List.length s); [reflexivity|].
  rewrite IH. destruct (sep_loop n sep p r2); reflexivity.
Qed.
Lemma sim_sep0 {A B C} (f : A -> B) (sep : parser C) p q : sim f p q -> sim (map f) (psep0 sep p) (psep0 sep q).
Proof.
  intros H s. unfold psep0. rewrite (H s). destruct (p s) as [a r| | | | |]; try reflexivity. cbn [rmap].
  rewrite (sim_sep_loop f sep p q H). destruct (sep_loop _ sep p r); reflexivity.
Qed.
Lemma sim_sep1 {A B C} (f : A -> B) (sep : parser C) p q : sim f p q -> sim (map f) (psep1 sep p) (psep1 sep q).
Proof.
  intros H. unfold psep1. apply (sim_bind f); [exact H|]. intros a. apply (sim_bind (map f)).
  - intros s. apply sim_sep_loop. exact H.
  - intros l. apply sim_ret. reflexivity.
Qed.
Lemma sim_all {A B} (f : A -> B) p q : sim f p q -> sim f (all_consuming p) (all_consuming q).
Proof. intros H s. unfold all_consuming. rewrite (H s). destruct (p s) as [a [|]| | | | |]; reflexivity. Qed.

Ltac sm := repeat first
  [ apply sim_spanned
  | apply sim_same; intros ?
  | apply (sim_bind snd); [apply sim_spanned|intros [? ?]]
  | apply sim_here; intros ?
  | apply sim_ret; reflexivity ].

Lemma sim_cname tot : sim erase_nc (l_cname tot) (pmap (fun '(p, l) => CName (NmC p l)) cname).
Proof.
  intros s. unfold l_cname, pmap, cname, spanned, pbind, here, pret.
  destruct (p_nc_name s) as [a r| | | | |]; try reflexivity. destruct (ptag (lit ":") r) as [u r'| | | | |]; try reflexivity. destruct (p_nc_name r'); reflexivity.
Qed.
Lemma sim_name tot : sim erase_nc (l_name tot) (pmap CName p_name).
Proof.
  intros s. unfold l_name, p_name. unfold por.
  pose proof (sim_cname tot s) as H. unfold pmap, pbind, pret in H |- *.
  destruct (cname s) as [[p l] r| | | | |] eqn:E; destruct (l_cname tot s) eqn:F; cbn in H; try discriminate H; cbn; try congruence.
  unfold spanned, pbind, here, pret. destruct (identifier_or_keyword s); reflexivity.
Qed.
Lemma sim_except nc nc' : sim erase_nc nc nc' -> sim (option_map erase_nc) (l_except_nc nc) (except_nc nc').
Proof. intros H. apply sim_opt. sm. exact H. Qed.
Lemma sim_prim_nc tot nc nc' : sim erase_nc nc nc' -> sim erase_nc (l_prim_nc tot nc) (prim_nc nc').
Proof.
  intros H. unfold l_prim_nc, prim_nc. repeat apply sim_or.
  - unfold l_ns_name_nc, ns_name_nc. sm. apply (sim_bind (option_map erase_nc)); [exact (sim_except nc nc' H)|]. intros [e|]; sm.
  - apply sim_name.
  - unfold l_any_name_nc, any_name_nc. sm. apply (sim_bind (option_map erase_nc)); [exact (sim_except nc nc' H)|]. intros [e|]; sm.
  - unfold l_paren_nc, paren_nc. sm. apply (sim_bind erase_nc); [exact H|]. intros e. sm.
Qed.
Lemma sim_alt_step nc nc' a : sim erase_nc nc nc' -> sim erase_nc (l_alt_step nc a) (alt_step nc' (erase_nc a)).
Proof.
  intros H s. unfold l_alt_step, alt_step.
  assert (K : sim erase_nc (l_alt_nc nc) (alt_nc nc')) by (unfold l_alt_nc, alt_nc; sm; exact H).
  rewrite (K s). destruct (l_alt_nc nc s); reflexivity.
Qed.
Lemma sim_name_class tot n : sim erase_nc (l_name_class tot n) (name_class n).
Proof.
  induction n as [|n IH]; [intros s; reflexivity|]. cbn [l_name_class name_class]. apply sim_same. intros an.
  apply (sim_bind erase_nc); [exact (sim_prim_nc tot _ _ IH)|]. intros a. apply sim_same. intros [|x fl].
  - apply sim_alt_step. exact IH.
  - destruct an; [apply sim_alt_step; exact IH|intros s; reflexivity].
Qed.
Lemma sim_dtname tot : sim erase_dt (l_datatype_name tot) p_datatype_name.
Proof.
  unfold l_datatype_name, p_datatype_name. repeat apply sim_or; try (apply sim_map_same; reflexivity).
  intros s. unfold l_datatype_cname, pmap, cname, spanned, pbind, here, pret.
  destruct (p_nc_name s) as [a r| | | | |]; try reflexivity. destruct (ptag (lit ":") r) as [u r'| | | | |]; try reflexivity. destruct (p_nc_name r'); reflexivity.
Qed.
Lemma sim_params tot n : sim (map snd) (l_params tot n) (params n).
Proof. unfold l_params, params. sm. apply (sim_bind (map snd)); [apply sim_sep0, sim_spanned|]. intros l. sm. Qed.
Lemma sim_opt_inherit tot : sim (option_map snd) (l_opt_inherit tot) opt_inherit.
Proof. apply sim_opt. unfold l_inherit, inherit. sm. Qed.

Section Sim.
Variables (tot n : nat) (LR : lrules) (R : rules).
Hypothesis Hp : sim erase_pat (lr_pattern LR) (r_pattern R).
Hypothesis Hg : sim erase_content (lr_grammar LR) (r_grammar R).
Hypothesis Hi : sim erase_override (lr_include LR) (r_include R).

Lemma sim_named kw c c' : (forall sp nc p, c' (erase_nc nc) (erase_pat p) = erase_pat (c sp nc p)) ->
  sim erase_pat (l_named_pattern tot n LR kw c) (named_pattern n R kw c').
Proof.
  intros E. unfold l_named_pattern, named_pattern. sm. apply (sim_bind erase_nc); [apply sim_name_class|]. intros nc. sm.
  apply (sim_bind erase_pat); [apply sim_cut; exact Hp|]. intros p. sm. apply sim_ret. apply E.
Qed.
Lemma sim_braced kw c c' : (forall p, c' (erase_pat p) = erase_pat (c p)) ->
  sim erase_pat (l_braced_pattern LR kw c) (braced_pattern R kw c').
Proof.
  intros E. unfold l_braced_pattern, braced_pattern. sm.
  apply (sim_bind erase_pat); [apply sim_cut; exact Hp|]. intros p. sm. apply sim_ret. apply E.
Qed.
Lemma sim_prim : sim erase_pat (l_prim tot n LR) (prim n R).
Proof.
  unfold l_prim, prim. repeat apply sim_or.
  - apply sim_named. reflexivity.
  - apply sim_named. reflexivity.
  - apply sim_braced. reflexivity.
  - apply sim_braced. reflexivity.
  - unfold l_datatype_value_pattern, datatype_value_pattern. apply (sim_bind (option_map erase_dt)); [apply sim_opt, sim_dtname|]. intros d. sm.
  - unfold l_datatype_param_pattern, datatype_param_pattern. apply (sim_bind erase_dt); [apply sim_dtname|]. intros d.
    apply (sim_bind erase_params); [apply sim_opt, sim_params|]. intros ps.
    apply (sim_bind (option_map erase_pat)).
    + apply sim_opt. unfold l_except_pattern, except_pattern. sm. exact Hp.
    + intros [e|]; sm.
  - apply (sim_map snd); [apply sim_spanned|]. reflexivity.
  - sm.
  - apply sim_map_same. reflexivity.
  - apply sim_map_same. reflexivity.
  - apply sim_map_same. reflexivity.
  - unfold l_external_pattern, external_pattern. sm.
  - unfold l_grammar_pattern, grammar_pattern. sm. apply (sim_bind (map erase_content)); [apply sim_sep0; exact Hg|]. intros l. sm.
  - unfold l_group_pattern, group_pattern. sm. apply (sim_bind erase_pat); [exact Hp|]. intros l. sm.
Qed.
Lemma sim_infix op c c' a : (forall b, c' (erase_pat a) (erase_pat b) = erase_pat (c a b)) ->
  sim erase_pat (l_infix LR op c a) (infix R op c' (erase_pat a)).
Proof. intros E. unfold l_infix, infix. sm. apply (sim_bind erase_pat); [exact Hp|]. intros b. apply sim_ret. apply E. Qed.
Lemma sim_postfix op c c' a : (c' (erase_pat a) = erase_pat (c a)) ->
  sim erase_pat (l_postfix op c a) (postfix op c' (erase_pat a)).
Proof. intros E. unfold l_postfix, postfix. sm. apply sim_ret. apply E. Qed.
Lemma sim_op_loop : forall m a, sim erase_pat (l_op_loop LR m a) (op_loop R m (erase_pat a)).
Proof.
  induction m as [|m IH]; intros a s; [reflexivity|]. cbn [l_op_loop op_loop]. destruct (sc0 s) as [u i| | | | |]; try reflexivity.
  repeat (match goal with |- context [looks_at ?t i] => destruct (looks_at t i) end;
    [apply (sim_bind erase_pat); [first [apply sim_infix; reflexivity | apply sim_postfix; reflexivity] | exact IH]|]).
  reflexivity.
Qed.
Lemma sim_pattern_body : sim erase_pat (l_pattern_body tot n LR) (pattern_body n R).
Proof.
  unfold l_pattern_body, pattern_body. sm. apply (sim_bind erase_pat); [exact sim_prim|]. intros p. sm. intros s. apply sim_op_loop.
Qed.
Lemma sim_start : sim snd (l_start_name tot) start_name.
Proof. unfold l_start_name, start_name. sm. Qed.
Lemma sim_assignment {A B} (g : A -> B) nm nm' c c' : sim snd nm nm' -> (forall sp x h p, c' x h (erase_pat p) = g (c sp x h p)) ->
  sim g (l_assignment LR nm c) (assignment R nm' c').
Proof.
  intros H E. unfold l_assignment, assignment. apply (sim_bind snd); [exact H|]. intros [sp x]. sm.
  apply (sim_bind erase_pat); [apply sim_cut; exact Hp|]. intros p. apply sim_ret. apply E.
Qed.
Lemma sim_div {A B A' B'} (f : A -> A') (g : B -> B') item item' c c' : sim f item item' -> (forall l, c' (map f l) = g (c l)) ->
  sim g (div_content item c) (div_content item' c').
Proof.
  intros H E. unfold div_content. sm. apply (sim_bind (map f)); [apply sim_sep0; exact H|]. intros l. sm. apply sim_ret. apply E.
Qed.
Lemma sim_include : sim erase_content (l_include tot LR) (include_ R).
Proof.
  unfold l_include, include_. sm. apply (sim_bind (option_map snd)); [apply sim_opt_inherit|]. intros i.
  apply (sim_bind (option_map (map erase_override))).
  - apply sim_opt. unfold l_overrides, overrides. sm. apply (sim_bind (map erase_override)); [apply sim_sep0; exact Hi|]. intros ov. sm.
  - intros [ov|]; sm.
Qed.
Lemma sim_grammar_body : sim erase_content (l_grammar_body tot n LR) (grammar_body n R).
Proof.
  unfold l_grammar_body, grammar_body. repeat apply sim_or.
  - apply sim_assignment; [exact sim_start|reflexivity].
  - apply sim_assignment; [apply sim_spanned|reflexivity].
  - apply (sim_div erase_content); [exact Hg|reflexivity].
  - exact sim_include.
  - apply sim_map_same. reflexivity.
Qed.
Lemma sim_include_body : sim erase_override (l_include_body tot n LR) (include_body n R).
Proof.
  unfold l_include_body, include_body. sm. repeat apply sim_or.
  - apply sim_map_same. reflexivity.
  - apply sim_assignment; [apply sim_spanned|reflexivity].
  - apply sim_assignment; [exact sim_start|reflexivity].
  - apply (sim_div erase_override); [exact Hi|reflexivity].
Qed.
End Sim.

Lemma sim_parsers tot n : sim erase_pat (lr_pattern (l_parsers tot n)) (r_pattern (parsers n)) /\
  sim erase_content (lr_grammar (l_parsers tot n)) (r_grammar (parsers n)) /\
  sim erase_override (lr_include (l_parsers tot n)) (r_include (parsers n)).
Proof.
  induction n as [|n (H1 & H2 & H3)]; [repeat split; intros s; reflexivity|]. cbn [l_parsers parsers lr_pattern lr_grammar lr_include r_pattern r_grammar r_include].
  split; [|split].
  - apply sim_pattern_body; assumption.
  - apply sim_grammar_body; assumption.
  - apply sim_include_body; assumption.
Qed.
Lemma sim_schema tot n : sim erase (l_schema tot n) (p_schema n).
Proof.
  apply sim_all. sm. apply (sim_bind erase); [|intros x; sm].
  unfold l_top_level, top_level. sm. apply (sim_bind erase_top).
  - destruct (sim_parsers tot n) as (H1 & H2 & _). apply sim_or.
    + apply (sim_map (map erase_content)); [apply sim_sep1; exact H2|reflexivity].
    + apply (sim_map erase_pat); [exact H1|reflexivity].
  - intros t. sm.
Qed.
Definition forget (x : lparsed) : parsed :=
  match x with LParsed s => Parsed (erase s) | LParseError => ParseError | LParsePanic p => ParsePanic p | LParseFuel => ParseFuel end.
Theorem located_forget text : forget (parse_compact_located text) = parse_compact text.
Proof.
  unfold parse_compact_located, parse_compact. rewrite (sim_schema (utf8_len text) (S (List.length text)) text).
  destruct (l_schema _ _ text); reflexivity.
Qed.

(** ** Where the positions are *)
Lemma pbind_inv {A B} (p : parser A) (f : A -> parser B) s b r : pbind p f s = POk b r -> exists a m, p s = POk a m /\ f a m = POk b r.
Proof. unfold pbind. destruct (p s) as [a m| | | | |]; try discriminate. intros H. exists a, m. auto. Qed.
Lemma pmap_inv {A B} (f : A -> B) (p : parser A) s b r : pmap f p s = POk b r -> exists a, p s = POk a r /\ b = f a.
Proof. intros H. apply pbind_inv in H as (a & m & H1 & H2). injection H2 as <- <-. eauto. Qed.
Lemma por_inv {A} (p q : parser A) s a r : (p <|> q) s = POk a r -> p s = POk a r \/ q s = POk a r.
Proof. unfold por. destruct (p s); auto; discriminate. Qed.
Lemma popt_inv {A} (p : parser A) s a r : popt p s = POk a r -> (exists x, a = Some x /\ p s = POk x r) \/ (a = None /\ r = s).
Proof. unfold popt. destruct (p s); try discriminate; intros H; injection H as <- <-; eauto. Qed.
Lemma pcut_inv {A} (p : parser A) s a r : pcut p s = POk a r -> p s = POk a r.
Proof. unfold pcut. destruct (p s); auto; discriminate. Qed.

Definition Con {A} (p : parser A) : Prop := forall s a r, p s = POk a r -> suffix r s.
Lemma T_con {A} b (p : parser A) : (forall n, T b n p) -> Con p.
Proof. intros H s a r E. specialize (H (S (List.length s)) s ltac:(lia)). rewrite E in H. apply H. Qed.
Lemma con_bind {A B} (p : parser A) (f : A -> parser B) : Con p -> (forall a, Con (f a)) -> Con (pbind p f).
Proof. intros H K s b r E. apply pbind_inv in E as (a & m & E1 & E2). eapply suffix_trans; [eapply K; eauto|eapply H; eauto]. Qed.
Lemma con_ret {A} (a : A) : Con (pret a).
Proof. intros s b r E. injection E as _ <-. apply suffix_refl. Qed.
Lemma con_map {A B} (f : A -> B) (p : parser A) : Con p -> Con (pmap f p).
Proof. intros H. apply con_bind; [exact H|]. intros a. apply con_ret. Qed.
Lemma con_or {A} (p q : parser A) : Con p -> Con q -> Con (p <|> q).
Proof. intros H K s a r E. apply por_inv in E as [E|E]; [eapply H|eapply K]; eauto. Qed.
Lemma con_opt {A} (p : parser A) : Con p -> Con (popt p).
Proof. intros H s a r E. apply popt_inv in E as [(x & -> & E)|[-> ->]]; [eapply H; eauto|apply suffix_refl]. Qed.
Lemma con_cut {A} (p : parser A) : Con p -> Con (pcut p).
Proof. intros H s a r E. apply pcut_inv in E. eapply H; eauto. Qed.
Lemma con_sep_loop {A B} (sep : parser B) (p : parser A) : Con sep -> Con p -> forall n, Con (sep_loop n sep p).
Proof.
  intros Hs Hp. induction n as [|n IH]; intros s a r E; [discriminate E|]. cbn [sep_loop] in E.
  destruct (sep s) as [c r1| | | | |] eqn:E1; try discriminate E; [|injection E as _ <-; apply suffix_refl].
  destruct (p r1) as [x r2| | | | |] eqn:E2; try discriminate E; [|injection E as _ <-; apply suffix_refl].
  destruct (_ =? _); [discriminate E|]. destruct (sep_loop n sep p r2) as [l r3| | | | |] eqn:E3; try discriminate E. injection E as _ <-.
  eapply suffix_trans; [eapply IH; eauto|]. eapply suffix_trans; [eapply Hp; eauto|eapply Hs; eauto].
Qed.
Lemma con_sep0 {A B} (sep : parser B) (p : parser A) : Con sep -> Con p -> Con (psep0 sep p).
Proof.
  intros Hs Hp s a r E. unfold psep0 in E. destruct (p s) as [x r2| | | | |] eqn:E2; try discriminate E; [|injection E as _ <-; apply suffix_refl].
  destruct (sep_loop _ sep p r2) as [l r3| | | | |] eqn:E3; try discriminate E. injection E as _ <-.
  eapply suffix_trans; [exact (con_sep_loop sep p Hs Hp _ _ _ _ E3)|eapply Hp; eauto].
Qed.
Lemma con_tag t : Con (ptag t). Proof. exact (T_con _ _ (fun n => T_tag0 n t)). Qed.
Lemma con_sc0 : Con sc0. Proof. exact (T_con _ _ T_sc0). Qed.
Lemma con_sc1 : Con sc1. Proof. exact (T_con _ _ T_sc1). Qed.
Lemma con_nc : Con p_nc_name. Proof. exact (T_con _ _ T_nc_name). Qed.
Lemma con_identifier : Con identifier. Proof. exact (T_con _ _ T_identifier). Qed.
Lemma con_idkw : Con identifier_or_keyword. Proof. exact (T_con _ _ T_idkw). Qed.
Lemma con_literal : Con p_literal. Proof. exact (T_con _ _ T_literal). Qed.
Lemma con_dtname : Con p_datatype_name. Proof. exact (T_con _ _ T_dtname). Qed.
Lemma con_decl : Con p_decl. Proof. exact (T_con _ _ T_decl). Qed.
Lemma con_name : Con p_name. Proof. exact (T_con _ _ T_name). Qed.
Lemma con_ann_attr : Con annotation_attribute. Proof. exact (T_con _ _ T_ann_attr). Qed.
Lemma con_assign : Con assign_method. Proof. exact (T_con _ _ T_assign). Qed.
Lemma con_opt_inherit : Con opt_inherit. Proof. exact (T_con _ _ T_opt_inherit). Qed.
Ltac con := repeat lazymatch goal with
  | |- Con (ptag _) => exact (con_tag _) | |- Con sc0 => exact con_sc0 | |- Con sc1 => exact con_sc1 | |- Con p_nc_name => exact con_nc
  | |- Con identifier => exact con_identifier | |- Con identifier_or_keyword => exact con_idkw | |- Con p_literal => exact con_literal
  | |- Con p_datatype_name => exact con_dtname | |- Con p_name => exact con_name | |- Con annotation_attribute => exact con_ann_attr
  | |- Con assign_method => exact con_assign | |- Con (pret _) => apply con_ret
  | |- Con (pbind _ _) => apply con_bind; [|intros ?] | |- Con (pmap _ _) => apply con_map | |- Con (_ <|> _) => apply con_or
  | |- Con (popt _) => apply con_opt | |- Con (pcut _) => apply con_cut | |- Con (psep0 _ _) => apply con_sep0
  | |- _ => assumption end.
Lemma con_annotation n : Con (annotation_element n).
Proof. induction n as [|n IH]; [intros s a r E; discriminate E|]. cbn [annotation_element]. con. Qed.
Lemma con_initial n : Con (maybe_initial_annotation n).
Proof. unfold maybe_initial_annotation, initial_annotation. pose proof (con_annotation n). con. Qed.
Lemma con_follow n : Con (follow_annotation_list n).
Proof. unfold follow_annotation_list, follow_annotation. pose proof (con_annotation n). con. Qed.
Lemma con_params n : Con (params n).
Proof. unfold params, p_param. pose proof (con_initial n). con. Qed.

(** a literal begins and ends with a quote *)
Lemma segment_quoted s b r : literal_segment s = POk b r -> exists c m d, s = c :: m ++ d :: r /\ is_quote c /\ is_quote d.
Proof.
  assert (D : forall c k p, is_quote c -> Con p -> delim (repeat c (S k)) p (repeat c (S k)) s = POk b r ->
    exists c m d, s = c :: m ++ d :: r /\ is_quote c /\ is_quote d).
  { intros c k p Hc Hp E. unfold delim in E. apply pbind_inv in E as ([] & m1 & E1 & E). apply pbind_inv in E as (x & m2 & E2 & E).
    apply pbind_inv in E as ([] & m3 & E3 & E). injection E as <- <-. apply ptag_ok in E1, E3. apply Hp in E2 as [w ->].
    assert (R : repeat c (S k) = repeat c k ++ [c]).
    { clear. induction k as [|k IH]; [reflexivity|]. cbn in *. rewrite <- IH. reflexivity. }
    exists c, (repeat c k ++ w ++ repeat c k), c. split; [|auto]. rewrite E1, E3. rewrite R at 2. cbn. rewrite <- !app_assoc. reflexivity. }
  intros E. unfold literal_segment in E.
  assert (Q : is_quote 34%N) by (left; reflexivity). assert (A : is_quote 39%N) by (right; reflexivity).
  assert (TU : forall t, Con (take_until t)) by (intros t; exact (T_con _ _ (fun n => T_take_until n t))).
  assert (RW : forall cs, Con (run_without cs)) by (intros t; exact (T_con _ _ (fun n => T_run n t))).
  apply por_inv in E as [E|E]; [exact (D 34%N 2 _ Q (TU _) E)|]. apply por_inv in E as [E|E]; [exact (D 39%N 2 _ A (TU _) E)|].
  apply por_inv in E as [E|E]; [exact (D 34%N 0 _ Q (RW _) E)|exact (D 39%N 0 _ A (RW _) E)].
Qed.
Lemma literal_quoted s b r : p_literal s = POk b r -> exists w, s = w ++ r /\ Quoted w.
Proof.
  intros E. unfold p_literal, psep1 in E. apply pbind_inv in E as (x & m & E1 & E). apply pbind_inv in E as (l & m' & E2 & E). injection E as _ <-.
  apply segment_quoted in E1 as (c & k & d & -> & Hc & Hd).
  assert (L : forall n s l r, sep_loop n (sc0 ;* ptag (lit "~") ;* sc0) literal_segment s = POk l r -> r = s \/ exists k d, s = k ++ d :: r /\ is_quote d).
  { clear. induction n as [|n IH]; intros s l r E; [discriminate E|]. cbn [sep_loop] in E.
    destruct (pbind sc0 _ s) as [c r1| | | | |] eqn:E1; try discriminate E; [|injection E as _ <-; auto].
    destruct (literal_segment r1) as [x r2| | | | |] eqn:E2; try discriminate E; [|injection E as _ <-; auto].
    destruct (_ =? _); [discriminate E|]. destruct (sep_loop n _ _ r2) as [l' r3| | | | |] eqn:E3; try discriminate E. injection E as _ <-.
    apply (con_bind _ _ con_sc0 (fun _ => con_bind _ _ (con_tag _) (fun _ => con_sc0))) in E1 as [w ->].
    apply segment_quoted in E2 as (q & k & d & -> & _ & Hd). right. apply IH in E3 as [->|(k' & d' & -> & Hd')].
    - exists (w ++ q :: k), d. rewrite <- app_assoc. auto.
    - exists (w ++ q :: k ++ d :: k'), d'. split; [|exact Hd']. rewrite <- !app_assoc. cbn. rewrite <- ?app_assoc. reflexivity. }
  apply L in E2 as [->|(k' & d' & -> & Hd')].
  - exists (c :: k ++ [d]). split; [cbn; rewrite <- app_assoc; reflexivity|]. exists c, k, d. auto.
  - exists (c :: (k ++ d :: k') ++ [d']). split; [cbn; rewrite <- ?app_assoc; cbn; rewrite <- ?app_assoc; reflexivity|]. exists c, (k ++ d :: k'), d'. auto.
Qed.
(** the text read is the name *)
Lemma recog_text {A} (p : parser A) s a r : Con p -> precog p s = POk a r -> s = a ++ r.
Proof.
  intros H E. unfold precog in E. destruct (p s) as [x m| | | | |] eqn:E1; try discriminate E. injection E as <- <-.
  apply H in E1 as [w ->]. rewrite app_length, Nat.add_sub, firstn_app, Nat.sub_diag, firstn_all, firstn_O, app_nil_r. reflexivity.
Qed.
Lemma con_alt_tags l : Con (alt_tags l).
Proof. induction l as [|t l IH]; cbn [alt_tags]; [intros s a r E; discriminate E|]. con. Qed.
Lemma con_not {A} (p : parser A) : Con (pnot p).
Proof. intros s a r E. unfold pnot in E. destruct (p s); try discriminate E. injection E as _ <-. apply suffix_refl. Qed.
Lemma con_keyword : Con keyword. Proof. exact (T_con _ _ T_keyword). Qed.
Lemma identifier_text s a r : identifier s = POk a r -> s = a ++ r.
Proof.
  intros E. apply por_inv in E as [E|E]; apply recog_text in E; try exact E.
  - apply con_bind; [apply con_tag|intros ?; apply con_keyword].
  - apply con_bind; [apply con_not|intros ?; apply con_nc].
Qed.
Lemma nc_text s a r : p_nc_name s = POk a r -> s = a ++ r.
Proof.
  unfold p_nc_name. destruct (nc_name s) as [[x y]|] eqn:E; [|discriminate]. intros H. injection H as <- <-.
  unfold nc_name in E. destruct s as [|c s]; [discriminate E|]. destruct (nc_start_char c); [|discriminate E].
  destruct (take_while nc_char s) as [u v] eqn:F. injection E as <- <-. apply take_while_app in F. cbn. congruence.
Qed.
Lemma keyword_text s a r : keyword s = POk a r -> s = a ++ r.
Proof.
  intros E. apply pbind_inv in E as (k & m & E1 & E). apply pbind_inv in E as (u & m2 & E2 & E). injection E as <- <-.
  unfold pnot in E2. destruct (psat nc_char m); try discriminate E2. injection E2 as _ <-.
  revert E1. generalize keywords. induction l as [|t l IH]; cbn [alt_tags]; intros E; [discriminate E|].
  apply por_inv in E as [E|E]; [|exact (IH E)]. apply pbind_inv in E as ([] & m3 & E1 & E). injection E as <- <-. apply ptag_ok in E1. exact E1.
Qed.
Lemma idkw_text s a r : identifier_or_keyword s = POk a r -> s = ik_string a ++ r.
Proof.
  intros E. apply por_inv in E as [E|E]; apply pmap_inv in E as (x & E & ->); cbn.
  - exact (identifier_text _ _ _ E).
  - exact (keyword_text _ _ _ E).
Qed.
