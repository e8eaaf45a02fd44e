(** * CompactErrorSim: without the positions of errors, CompactError.v is CompactParse.v. *)
From Coq Require Import String.
From Verif Require Import Base Datatype Syntax.
From Verif Require CompactParse CompactError.

Definition erase {A} (r : CompactError.pres A) : CompactParse.pres A :=
  match r with
  | CompactError.POk a s => CompactParse.POk a s
  | CompactError.PErr _ => CompactParse.PErr | CompactError.PFail _ => CompactParse.PFail | CompactError.PInc => CompactParse.PInc
  | CompactError.PPanic x => CompactParse.PPanic x | CompactError.PFuel => CompactParse.PFuel
  end.
Definition Sim {A} (e : CompactError.parser A) (p : CompactParse.parser A) : Prop := forall s, erase (e s) = p s.

Lemma sim_ret {A} (a : A) : Sim (CompactError.pret a) (CompactParse.pret a).
Proof. intros s. reflexivity. Qed.
Lemma sim_err {A} : Sim (@CompactError.perr A) (@CompactParse.perr A).
Proof. intros s. reflexivity. Qed.
Lemma sim_bind {A B} (e : CompactError.parser A) p (f : A -> CompactError.parser B) g : Sim e p -> (forall a, Sim (f a) (g a)) -> Sim (CompactError.pbind e f) (CompactParse.pbind p g).
Proof. intros H K s. unfold CompactError.pbind, CompactParse.pbind. rewrite <- (H s). destruct (e s); try reflexivity. apply K. Qed.
Lemma sim_map {A B} (f : A -> B) e p : Sim e p -> Sim (CompactError.pmap f e) (CompactParse.pmap f p).
Proof. intros H. apply sim_bind; [exact H | intros a; apply sim_ret]. Qed.
Lemma sim_or {A} (e e' : CompactError.parser A) p p' : Sim e p -> Sim e' p' -> Sim (CompactError.por e e') (CompactParse.por p p').
Proof. intros H K s. unfold CompactError.por, CompactParse.por. rewrite <- (H s). destruct (e s); try reflexivity. apply K. Qed.
Lemma sim_opt {A} (e : CompactError.parser A) p : Sim e p -> Sim (CompactError.popt e) (CompactParse.popt p).
Proof. intros H s. unfold CompactError.popt, CompactParse.popt. rewrite <- (H s). destruct (e s); reflexivity. Qed.
Lemma sim_cut {A} (e : CompactError.parser A) p : Sim e p -> Sim (CompactError.pcut e) (CompactParse.pcut p).
Proof. intros H s. unfold CompactError.pcut, CompactParse.pcut. rewrite <- (H s). destruct (e s); reflexivity. Qed.
Lemma sim_not {A} (e : CompactError.parser A) p : Sim e p -> Sim (CompactError.pnot e) (CompactParse.pnot p).
Proof. intros H s. unfold CompactError.pnot, CompactParse.pnot. rewrite <- (H s). destruct (e s); reflexivity. Qed.
Lemma strip_tag t : forall s, CompactParse.ptag t s = match CompactError.strip t s with Some r => CompactParse.POk tt r | None => CompactParse.PErr end.
Proof. induction t as [|a t IH]; intros [|c s]; cbn; try reflexivity. destruct (a =? c)%N; [apply IH | reflexivity]. Qed.
Lemma sim_tag t : Sim (CompactError.ptag t) (CompactParse.ptag t).
Proof. intros s. rewrite strip_tag. unfold CompactError.ptag. destruct (CompactError.strip t s); reflexivity. Qed.
Lemma sim_sat f : Sim (CompactError.psat f) (CompactParse.psat f).
Proof. intros [|c s]; cbn; [reflexivity|]. destruct (f c); reflexivity. Qed.
Lemma sim_recog {A} (e : CompactError.parser A) p : Sim e p -> Sim (CompactError.precog e) (CompactParse.precog p).
Proof. intros H s. unfold CompactError.precog, CompactParse.precog. rewrite <- (H s). destruct (e s); reflexivity. Qed.
Lemma sim_many {A} (e : CompactError.parser A) p : Sim e p -> forall n s, erase (CompactError.many_loop n e s) = CompactParse.many_loop n p s.
Proof.
  intros H. induction n as [|n IH]; intros s; [reflexivity|]. cbn. rewrite <- (H s). destruct (e s); try reflexivity. cbn.
  destruct (_ =? _); [reflexivity|]. rewrite <- (IH rest). destruct (CompactError.many_loop n e rest); reflexivity.
Qed.
Lemma sim_many0 {A} (e : CompactError.parser A) p : Sim e p -> Sim (CompactError.pmany0 e) (CompactParse.pmany0 p).
Proof. intros H s. apply sim_many, H. Qed.
Lemma sim_many1 {A} (e : CompactError.parser A) p : Sim e p -> Sim (CompactError.pmany1 e) (CompactParse.pmany1 p).
Proof.
  intros H s. unfold CompactError.pmany1, CompactParse.pmany1, CompactParse.pbind. rewrite <- (H s). destruct (e s); try reflexivity.
  apply (sim_bind (CompactError.pmany0 e) (CompactParse.pmany0 p) (fun l => CompactError.pret (a :: l)) (fun l => CompactParse.pret (a :: l))); [apply sim_many0, H | intros l; apply sim_ret].
Qed.
Lemma sim_sep {A B} (e : CompactError.parser A) p (se : CompactError.parser B) sp : Sim e p -> Sim se sp -> forall n s, erase (CompactError.sep_loop n se e s) = CompactParse.sep_loop n sp p s.
Proof.
  intros H K. induction n as [|n IH]; intros s; [reflexivity|]. cbn. rewrite <- (K s). destruct (se s) as [b r| | | | |]; try reflexivity. cbn.
  rewrite <- (H r). destruct (e r) as [a r2| | | | |]; try reflexivity. cbn. destruct (_ =? _); [reflexivity|]. rewrite <- (IH r2). destruct (CompactError.sep_loop n se e r2); reflexivity.
Qed.
Lemma sim_sep0 {A B} (e : CompactError.parser A) p (se : CompactError.parser B) sp : Sim se sp -> Sim e p -> Sim (CompactError.psep0 se e) (CompactParse.psep0 sp p).
Proof.
  intros K H s. unfold CompactError.psep0, CompactParse.psep0. rewrite <- (H s). destruct (e s); try reflexivity. cbn [erase]. rewrite <- (sim_sep e p se sp H K).
  destruct (CompactError.sep_loop _ se e rest); reflexivity.
Qed.
Lemma sim_sep1 {A B} (e : CompactError.parser A) p (se : CompactError.parser B) sp : Sim se sp -> Sim e p -> Sim (CompactError.psep1 se e) (CompactParse.psep1 sp p).
Proof. intros K H. apply sim_bind; [exact H|]. intros a. apply sim_bind; [intros s; apply sim_sep; assumption | intros l; apply sim_ret]. Qed.
Lemma until_take t : forall s, CompactParse.take_until t s = match CompactError.until t s with Some (b, r) => CompactParse.POk b r | None => CompactParse.PErr end.
Proof.
  induction s as [|c s IH]; cbn [CompactParse.take_until CompactError.until]; rewrite strip_tag; destruct (CompactError.strip t _); try reflexivity. rewrite IH. destruct (CompactError.until t s) as [[b r]|]; reflexivity.
Qed.
Lemma sim_until t : Sim (CompactError.take_until t) (CompactParse.take_until t).
Proof. intros s. rewrite until_take. unfold CompactError.take_until. destruct (CompactError.until t s) as [[b r]|]; reflexivity. Qed.
Lemma sim_run cs : Sim (CompactError.run_without cs) (CompactParse.run_without cs).
Proof. intros s. unfold CompactError.run_without, CompactParse.run_without. destruct (take_while _ s). reflexivity. Qed.
Lemma sim_space : Sim CompactError.multispace1 CompactParse.multispace1.
Proof. intros s. unfold CompactError.multispace1, CompactParse.multispace1. destruct (take_while _ s) as [[|a l] b]; reflexivity. Qed.
Lemma sim_line : Sim CompactError.not_line_ending CompactParse.not_line_ending.
Proof.
  intros s. unfold CompactError.not_line_ending, CompactParse.not_line_ending. destruct (take_while _ s) as [a [|c b]]; [reflexivity|]. destruct (c =? 13)%N; [|reflexivity].
  destruct b as [|d b]; [reflexivity|]. destruct (d =? 10)%N; reflexivity.
Qed.
Lemma sim_nc_name : Sim CompactError.p_nc_name CompactParse.p_nc_name.
Proof. intros s. unfold CompactError.p_nc_name, CompactParse.p_nc_name. destruct (nc_name s) as [[a r]|]; reflexivity. Qed.
Lemma sim_alt_tags l : Sim (CompactError.alt_tags l) (CompactParse.alt_tags l).
Proof. induction l as [|t l IH]; [apply sim_err|]. apply sim_or; [|exact IH]. apply sim_bind; [apply sim_tag | intros u; apply sim_ret]. Qed.

Ltac sim := repeat first
  [ assumption
  | apply sim_ret | apply sim_err | apply sim_tag | apply sim_sat | apply sim_until | apply sim_run | apply sim_space | apply sim_line | apply sim_nc_name | apply sim_alt_tags
  | match goal with |- forall _, Sim _ _ => intros ? end
  | apply sim_map | apply sim_or | apply sim_opt | apply sim_cut | apply sim_not | apply sim_recog | apply sim_many0 | apply sim_many1 | apply sim_sep0 | apply sim_sep1
  | apply sim_bind
  | match goal with |- Sim ((fun '(_, _) => _) _) _ => idtac end ].
Lemma sim_sc0 : Sim CompactError.sc0 CompactParse.sc0. Proof. unfold CompactError.sc0, CompactParse.sc0, CompactError.space_or_comment, CompactParse.space_or_comment, CompactError.comment, CompactParse.comment. sim. Qed.
Lemma sim_sc1 : Sim CompactError.sc1 CompactParse.sc1. Proof. unfold CompactError.sc1, CompactParse.sc1, CompactError.space_or_comment, CompactParse.space_or_comment, CompactError.comment, CompactParse.comment. sim. Qed.
Lemma sim_keyword : Sim CompactError.keyword CompactParse.keyword. Proof. unfold CompactError.keyword, CompactParse.keyword. sim. Qed.
Ltac sim1 := repeat first [ apply sim_sc0 | apply sim_sc1 | apply sim_keyword | progress sim ].
Lemma sim_identifier : Sim CompactError.identifier CompactParse.identifier. Proof. unfold CompactError.identifier, CompactParse.identifier. sim1. Qed.
Lemma sim_idkw : Sim CompactError.identifier_or_keyword CompactParse.identifier_or_keyword.
Proof. unfold CompactError.identifier_or_keyword, CompactParse.identifier_or_keyword. pose proof sim_identifier. pose proof sim_keyword. sim1. Qed.
Lemma sim_segment : Sim CompactError.literal_segment CompactParse.literal_segment.
Proof. unfold CompactError.literal_segment, CompactParse.literal_segment, CompactError.delim, CompactParse.delim. sim1. Qed.
Lemma sim_literal : Sim CompactError.p_literal CompactParse.p_literal.
Proof. unfold CompactError.p_literal, CompactParse.p_literal. pose proof sim_segment. sim1. Qed.
Lemma sim_uri : Sim CompactError.namespace_uri_literal CompactParse.namespace_uri_literal.
Proof. unfold CompactError.namespace_uri_literal, CompactParse.namespace_uri_literal. pose proof sim_literal. sim1. Qed.
Lemma sim_decl : Sim CompactError.p_decl CompactParse.p_decl.
Proof.
  unfold CompactError.p_decl, CompactParse.p_decl, CompactError.decl_namespace, CompactParse.decl_namespace, CompactError.decl_default_namespace, CompactParse.decl_default_namespace, CompactError.decl_datatypes, CompactParse.decl_datatypes.
  pose proof sim_uri. pose proof sim_literal. pose proof sim_idkw. sim1.
Qed.
Lemma sim_cname : Sim CompactError.cname CompactParse.cname. Proof. unfold CompactError.cname, CompactParse.cname. sim1. Qed.
Lemma sim_dtname : Sim CompactError.p_datatype_name CompactParse.p_datatype_name.
Proof. unfold CompactError.p_datatype_name, CompactParse.p_datatype_name. pose proof sim_cname. sim1. Qed.
Lemma sim_name : Sim CompactError.p_name CompactParse.p_name.
Proof. unfold CompactError.p_name, CompactParse.p_name. pose proof sim_cname. pose proof sim_idkw. sim1. Qed.
Lemma sim_attr : Sim CompactError.annotation_attribute CompactParse.annotation_attribute.
Proof. unfold CompactError.annotation_attribute, CompactParse.annotation_attribute. pose proof sim_name. pose proof sim_literal. sim1. Qed.
Lemma sim_elem n : Sim (CompactError.annotation_element n) (CompactParse.annotation_element n).
Proof.
  induction n as [|n IH]; [intros s; reflexivity|]. cbn [CompactError.annotation_element CompactParse.annotation_element]. pose proof sim_name. pose proof sim_literal. pose proof sim_attr. sim1.
Qed.
Lemma sim_initial n : Sim (CompactError.initial_annotation n) (CompactParse.initial_annotation n).
Proof. unfold CompactError.initial_annotation, CompactParse.initial_annotation. pose proof sim_attr. pose proof (sim_elem n). sim1. Qed.
Lemma sim_maybe n : Sim (CompactError.maybe_initial_annotation n) (CompactParse.maybe_initial_annotation n).
Proof. unfold CompactError.maybe_initial_annotation, CompactParse.maybe_initial_annotation. pose proof (sim_initial n). sim1. Qed.
Lemma sim_follows n : Sim (CompactError.follow_annotation_list n) (CompactParse.follow_annotation_list n).
Proof. unfold CompactError.follow_annotation_list, CompactParse.follow_annotation_list, CompactError.follow_annotation, CompactParse.follow_annotation. pose proof (sim_elem n). sim1. Qed.
Lemma sim_except nc nc' : Sim nc nc' -> Sim (CompactError.except_nc nc) (CompactParse.except_nc nc').
Proof. intros H. unfold CompactError.except_nc, CompactParse.except_nc. sim1. Qed.
Lemma sim_prim_nc nc nc' : Sim nc nc' -> Sim (CompactError.prim_nc nc) (CompactParse.prim_nc nc').
Proof.
  intros H. unfold CompactError.prim_nc, CompactParse.prim_nc, CompactError.ns_name_nc, CompactParse.ns_name_nc, CompactError.any_name_nc, CompactParse.any_name_nc, CompactError.paren_nc, CompactParse.paren_nc.
  pose proof (sim_except _ _ H). pose proof sim_name. sim1.
Qed.
Lemma sim_alt_step nc nc' a : Sim nc nc' -> Sim (CompactError.alt_step nc a) (CompactParse.alt_step nc' a).
Proof.
  intros H s. unfold CompactError.alt_step, CompactParse.alt_step. assert (K : Sim (CompactError.alt_nc nc) (CompactParse.alt_nc nc')) by (unfold CompactError.alt_nc, CompactParse.alt_nc; sim1).
  rewrite <- (K s). destruct (CompactError.alt_nc nc s); reflexivity.
Qed.
Lemma sim_name_class n : Sim (CompactError.name_class n) (CompactParse.name_class n).
Proof.
  induction n as [|n IH]; [intros s; reflexivity|]. cbn [CompactError.name_class CompactParse.name_class]. apply sim_bind; [apply sim_maybe|]. intros an.
  apply sim_bind; [apply sim_prim_nc, IH|]. intros a. apply sim_bind; [apply sim_follows|]. intros [|f fl]; [|destruct an; [|intros s; reflexivity]]; apply sim_alt_step, IH.
Qed.
Lemma sim_inherit : Sim CompactError.opt_inherit CompactParse.opt_inherit.
Proof. unfold CompactError.opt_inherit, CompactParse.opt_inherit, CompactError.inherit, CompactParse.inherit. pose proof sim_idkw. sim1. Qed.
Lemma sim_method : Sim CompactError.assign_method CompactParse.assign_method.
Proof. unfold CompactError.assign_method, CompactParse.assign_method. sim1. Qed.
Lemma sim_param n : Sim (CompactError.p_param n) (CompactParse.p_param n).
Proof. unfold CompactError.p_param, CompactParse.p_param. pose proof (sim_maybe n). pose proof sim_idkw. pose proof sim_literal. sim1. Qed.

Definition SimR (R : CompactError.rules) (S : CompactParse.rules) : Prop :=
  Sim (CompactError.r_pattern R) (CompactParse.r_pattern S) /\ Sim (CompactError.r_grammar R) (CompactParse.r_grammar S) /\ Sim (CompactError.r_include R) (CompactParse.r_include S).
Section Bodies.
Variables (n : nat) (R : CompactError.rules) (R' : CompactParse.rules).
Hypothesis HR : SimR R R'.
Let Hp : Sim (CompactError.r_pattern R) (CompactParse.r_pattern R') := proj1 HR.
Let Hg : Sim (CompactError.r_grammar R) (CompactParse.r_grammar R') := proj1 (proj2 HR).
Let Hi : Sim (CompactError.r_include R) (CompactParse.r_include R') := proj2 (proj2 HR).
Ltac simb := pose proof (sim_name_class n); pose proof sim_literal; pose proof sim_inherit; pose proof sim_identifier; pose proof sim_dtname;
  pose proof (sim_param n); pose proof sim_method; pose proof (sim_maybe n); pose proof (sim_elem n); sim1.
Lemma sim_params : Sim (CompactError.params n) (CompactParse.params n).
Proof. unfold CompactError.params, CompactParse.params. simb. Qed.
Lemma sim_prim : Sim (CompactError.prim n R) (CompactParse.prim n R').
Proof.
  unfold CompactError.prim, CompactParse.prim, CompactError.named_pattern, CompactParse.named_pattern, CompactError.braced_pattern, CompactParse.braced_pattern, CompactError.external_pattern, CompactParse.external_pattern, CompactError.grammar_pattern, CompactParse.grammar_pattern,
    CompactError.group_pattern, CompactParse.group_pattern, CompactError.datatype_value_pattern, CompactParse.datatype_value_pattern, CompactError.datatype_param_pattern, CompactParse.datatype_param_pattern, CompactError.except_pattern, CompactParse.except_pattern.
  pose proof sim_params. simb.
Qed.
Lemma sim_looks t s : CompactError.looks_at t s = CompactParse.looks_at t s.
Proof. unfold CompactError.looks_at, CompactParse.looks_at. rewrite <- (sim_tag t s). destruct (CompactError.ptag t s); reflexivity. Qed.
Lemma sim_loop m : forall a, Sim (CompactError.op_loop R m a) (CompactParse.op_loop R' m a).
Proof.
  induction m as [|m IH]; intros a s; [reflexivity|]. cbn [CompactError.op_loop CompactParse.op_loop]. rewrite <- (sim_sc0 s). destruct (CompactError.sc0 s) as [u i| | | | |]; try reflexivity. cbn [erase].
  rewrite !sim_looks.
  repeat match goal with |- context [if CompactParse.looks_at ?t ?i then _ else _] => destruct (CompactParse.looks_at t i);
    [ match goal with |- erase (?e ?i) = ?p ?i => cut (Sim e p); [intros K; apply K|] end; unfold CompactError.infix, CompactParse.infix, CompactError.postfix, CompactParse.postfix; sim1; apply IH |] end.
  reflexivity.
Qed.
Lemma sim_pattern : Sim (CompactError.pattern_body n R) (CompactParse.pattern_body n R').
Proof.
  unfold CompactError.pattern_body, CompactParse.pattern_body. apply sim_bind; [apply sim_maybe|]. intros an. apply sim_bind; [apply sim_prim|]. intros p. apply sim_bind; [apply sim_follows|].
  intros fl s. apply sim_loop.
Qed.
Lemma sim_grammar : Sim (CompactError.grammar_body n R) (CompactParse.grammar_body n R').
Proof.
  unfold CompactError.grammar_body, CompactParse.grammar_body, CompactError.assignment, CompactParse.assignment, CompactError.start_name, CompactParse.start_name, CompactError.div_content, CompactParse.div_content, CompactError.include_, CompactParse.include_, CompactError.overrides, CompactParse.overrides. simb.
Qed.
Lemma sim_include : Sim (CompactError.include_body n R) (CompactParse.include_body n R').
Proof. unfold CompactError.include_body, CompactParse.include_body, CompactError.assignment, CompactParse.assignment, CompactError.start_name, CompactParse.start_name, CompactError.div_content, CompactParse.div_content. simb. Qed.
End Bodies.
Lemma sim_parsers n : SimR (CompactError.parsers n) (CompactParse.parsers n).
Proof.
  induction n as [|n IH]; [repeat split|]. cbn [CompactError.parsers CompactParse.parsers]. repeat split; [apply sim_pattern | apply sim_grammar | apply sim_include]; exact IH.
Qed.
Lemma sim_top n : Sim (CompactError.top_level n) (CompactParse.top_level n).
Proof.
  unfold CompactError.top_level, CompactParse.top_level, CompactError.grammar_content, CompactParse.grammar_content, CompactError.pattern, CompactParse.pattern. destruct (sim_parsers n) as (Hp & Hg & _). pose proof sim_decl. sim1.
Qed.
Lemma sim_schema n : Sim (CompactError.p_schema n) (CompactParse.p_schema n).
Proof.
  intros s. unfold CompactError.p_schema, CompactParse.p_schema, CompactError.all_consuming, CompactParse.all_consuming. pose proof (sim_top n).
  match goal with |- erase (match ?e s with _ => _ end) = match ?p s with _ => _ end => assert (K : Sim e p) by sim1; rewrite <- (K s); destruct (e s) as [a [|]| | | | |]; reflexivity end.
Qed.

(** the result without the position of an error *)
Definition unplaced (r : CompactError.parsed) : CompactParse.parsed :=
  match r with CompactError.Parsed x => CompactParse.Parsed x | CompactError.ParseError _ => CompactParse.ParseError | CompactError.ParsePanic p => CompactParse.ParsePanic p | CompactError.ParseFuel => CompactParse.ParseFuel end.
Lemma parse_unplaced text : unplaced (CompactError.parse_where text) = CompactParse.parse_compact text.
Proof. unfold CompactError.parse_where, CompactParse.parse_compact. rewrite <- (sim_schema _ text). destruct (CompactError.p_schema _ text); reflexivity. Qed.
