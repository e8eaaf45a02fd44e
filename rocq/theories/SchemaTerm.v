(** * SchemaTerm: schema compilation terminates (C33). *)
From Coq Require Import String.
From Verif Require Import Base Datatype Facets Store Lang Compile Syntax SchemaCompile SourceSpec SourceCompile SchemaSpec SchemaVisit.
From Verif Require Main.

(** ** no result needs a budget *)
Definition NF {A} (x : res A) : Prop := x <> OutOfFuel.
Lemma NF_fbind {E A B} (x : fres E A) (f : A -> fres E B) : NF x -> (forall a, x = fok a -> NF (f a)) -> NF (fbind x f).
Proof. intros H K. destruct x as [[a|e]|p|]; cbn; try discriminate; [apply K; reflexivity | contradiction H; reflexivity]. Qed.
Lemma NF_map {E E' A} (g : E -> E') (x : fres E A) : NF x -> NF (fmap_err g x).
Proof. intros H. destruct x as [[a|e]|p|]; cbn; try discriminate. contradiction H; reflexivity. Qed.
Lemma NF_bind {A B} (m : CM A) (f : A -> CM B) st : NF (m st) -> (forall a st', m st = fok (a, st') -> NF (f a st')) -> NF (cbind m f st).
Proof. intros H K. unfold cbind. apply NF_fbind; [exact H|]. intros [a st'] E. apply K; exact E. Qed.
Lemma NF_cmap {A} g (m : CM A) st : NF (m st) -> NF (cmap_err g m st).
Proof. apply NF_map. Qed.
Ltac nf := try discriminate.

Section DT.
Variable O : oracles.
Variable C : coracles.
Lemma NF_parsed {A} e (o : option A) : NF (parsed e o).
Proof. destruct o; discriminate. Qed.
Lemma NF_pattern v : NF (c_pattern C v).
Proof. unfold c_pattern. destruct (co_regex_ok C v); discriminate. Qed.
Lemma NF_merge_length a b : NF (merge_length a b).
Proof. unfold merge_length. destruct a, b; nf; repeat match goal with |- NF (if ?b then _ else _) => destruct b; nf end. Qed.
Lemma NF_length f n v r : length_param f n v = Some r -> NF r.
Proof.
  unfold length_param. repeat match goal with |- (if ?b then _ else _) = _ -> _ => destruct b end; intros H; nf; injection H as <-;
    (apply NF_fbind; [apply NF_parsed | intros; apply NF_merge_length]).
Qed.
Lemma NF_string ps : forall f p, NF (string_facets C f p ps).
Proof.
  induction ps as [|[n v] ps IH]; intros f p; cbn [string_facets]; nf. destruct (length_param f n v) as [r|] eqn:E.
  - apply NF_fbind; [eapply NF_length; exact E | auto].
  - destruct (is_name n "pattern"); nf. apply NF_fbind; [apply NF_pattern | auto].
Qed.
Lemma NF_lengths ps : forall f, NF (length_facets f ps).
Proof.
  induction ps as [|[n v] ps IH]; intros f; cbn [length_facets]; nf. destruct (length_param f n v) as [r|] eqn:E; nf.
  apply NF_fbind; [eapply NF_length; exact E | auto].
Qed.
Lemma NF_pats ps : forall p, NF (pattern_facets C p ps).
Proof.
  induction ps as [|[n v] ps IH]; intros p; cbn [pattern_facets]; nf. destruct (is_name n "pattern"); nf. apply NF_fbind; [apply NF_pattern | auto].
Qed.
Section B.
Context {T : Type} (lt le : T -> T -> bool) (parse : str -> fres facet_error T) (Hp : forall v, NF (parse v)).
Lemma NF_bound f n v r : bound_param lt le parse f n v = Some r -> NF r.
Proof.
  unfold bound_param, min_inclusive, min_exclusive, max_inclusive, max_exclusive.
  repeat match goal with |- (if ?b then _ else _) = _ -> _ => destruct b end; intros H; nf; injection H as <-;
    (apply NF_fbind; [apply Hp | intros]); cbn zeta; repeat match goal with |- NF (match ?b with _ => _ end) => destruct b; nf end.
Qed.
Lemma NF_bounds ps : forall f p, NF (bound_facets C lt le parse f p ps).
Proof.
  induction ps as [|[n v] ps IH]; intros f p; cbn [bound_facets]; nf. destruct (bound_param lt le parse f n v) as [r|] eqn:E.
  - apply NF_fbind; [eapply NF_bound; exact E | auto].
  - destruct (is_name n "pattern"); nf. apply NF_fbind; [apply NF_pattern | auto].
Qed.
End B.
Lemma NF_decimal ps : forall f p fd td, NF (decimal_facets O C f p fd td ps).
Proof.
  induction ps as [|[n v] ps IH]; intros f p fd td; cbn [decimal_facets]; nf. destruct (bound_param _ _ _ f n v) as [r|] eqn:E.
  - apply NF_fbind; [eapply NF_bound; [|exact E]; intros; apply NF_parsed | auto].
  - destruct (is_name n "pattern"); [apply NF_fbind; [apply NF_pattern | auto]|].
    destruct (is_name n "fractionDigits"); [apply NF_fbind; [apply NF_parsed | auto]|].
    destruct (is_name n "totalDigits"); [apply NF_fbind; [apply NF_parsed | auto]|]. nf.
Qed.
Lemma NF_xsd name ps : NF (xsd_compile O C name ps).
Proof.
  unfold xsd_compile. destruct (find_entry name (facet_table O C)) as [f|] eqn:E; nf. apply NF_map.
  unfold facet_table in E. cbn [find_entry] in E.
  repeat match type of E with (if ?b then _ else _) = _ => destruct b; [injection E as <-|] end; nf;
    try (apply NF_fbind; [apply NF_string || apply NF_lengths || apply NF_pats || (apply NF_bounds; intros; apply NF_parsed) | intros; try destruct a; nf]);
    apply NF_decimal.
Qed.
Lemma NF_relax_name n ps : NF (relax_name n ps).
Proof. unfold relax_name. destruct ps as [|[? ?] ?]; nf. destruct n; nf. destruct (is_name _ _); nf. destruct (is_name _ _); nf. Qed.
Lemma NF_relax_value n v : NF (relax_value n v).
Proof. unfold relax_value. destruct n; nf. destruct (is_name _ _); nf. destruct (is_name _ _); nf. Qed.
Lemma NF_name n ps : NF (Facets.datatype_name O C n ps).
Proof.
  unfold Facets.datatype_name. destruct n; try apply NF_relax_name; (destruct (str_eqb _ _); [apply NF_relax_name|]; destruct (str_eqb _ _); nf).
  apply NF_fbind; [apply NF_xsd | nf].
Qed.
Lemma NF_qname v : NF (qname_try v).
Proof. unfold qname_try. repeat (match goal with |- NF (match ?x with _ => _ end) => destruct x; nf | |- NF (rbind ?x _) => destruct x; cbn; nf end). Qed.
Lemma NF_value n v : NF (Facets.datatype_value n v).
Proof.
  unfold Facets.datatype_value. destruct n; try apply NF_relax_value; (destruct (str_eqb _ _); [apply NF_relax_value|]; destruct (str_eqb _ _); nf).
  unfold xsd_val. apply NF_fbind; [|nf]. unfold xsd_compile_value. destruct (is_name _ _); nf. destruct (is_name _ _); nf. destruct (is_name _ _); nf.
  pose proof (NF_qname v) as H. destruct (qname_try v) as [[q|]|p|]; cbn; nf. contradiction H; reflexivity.
Qed.
End DT.

Section Term.
Variable O : oracles.
Variable C : coracles.
Variable fs : filesys.
(** the included files around a context *)
Fixpoint inc_files (c : ctx) : list path :=
  match c with
  | XRoot _ _ _ _ => []
  | XInclude p f _ _ _ => f :: inc_files p
  | XOverrides p | XGrammar p _ | XDefine p _ | XElement p | XAttribute p => inc_files p
  end.
Lemma check_include_new c f st u st' : check_include c f st = fok (u, st') -> ~ In f (inc_files c).
Proof.
  induction c; cbn; intros H K; auto; try (eapply IHc; eassumption). unfold path_eqb in H. destruct (path_eq_dec f file) as [->|Hn]; [cbad H|].
  destruct K as [K|K]; [congruence | eapply IHc; eassumption].
Qed.
Lemma NF_check_include c f st : NF (check_include c f st).
Proof. induction c; cbn; nf; auto. destruct (path_eqb f file); nf; auto. Qed.
Lemma NF_nameclass c b n : forall st, NF (compile_nameclass c b n st).
Proof.
  assert (HU : forall p st, NF (namespace_uri_for_prefix c p st)) by (intros p st; unfold namespace_uri_for_prefix; destruct (namespace_uri c p); nf).
  revert n. fix IH 1. intros [[i|p l|u l]|nm ex|ex|a a'|a] st; cbn [compile_nameclass]; nf; auto.
  - apply NF_bind; [apply HU | nf].
  - apply NF_bind; [destruct ex as [e|]; nf; apply NF_bind; [apply IH | nf]|]. intros e st1 _. apply NF_bind; [destruct nm; nf; apply HU | nf].
  - apply NF_bind; [destruct ex as [e|]; nf; apply NF_bind; [apply IH | nf]|]. nf.
  - apply NF_bind; [apply IH|]. intros. apply NF_bind; [apply IH | nf].
Qed.
Lemma NF_dtname c n st : NF (compile_dtname c n st).
Proof. destruct n; cbn; nf. apply NF_bind; [|nf]. unfold try_datatype_uri. destruct (datatype_uri c prefix); nf. Qed.
Lemma NF_lift {A} (x : fres dt_error A) st : NF x -> NF (lift_dt x st).
Proof. intros H. unfold lift_dt. apply NF_fbind; [apply NF_map, H | nf]. Qed.
Lemma NF_acquire_in t i st : NF (acquire_in t i st).
Proof. unfold acquire_in. destruct (assoc _ _); nf. Qed.
Lemma NF_acquire_impl c i st : NF (acquire_ref_impl c i st).
Proof. induction c; cbn; auto using NF_acquire_in. Qed.
Lemma NF_acquire c i st : NF (acquire_ref c i st).
Proof.
  apply NF_bind; [|intros; apply NF_acquire_impl]. induction c; cbn; nf; auto. destruct (str_eqb _ _); nf.
Qed.
Lemma NF_parent c i st : NF (acquire_parent_ref c i st).
Proof. induction c; cbn; nf; auto using NF_acquire. Qed.
Lemma NF_merge n a b : NF (SchemaCompile.merge n a b).
Proof.
  unfold SchemaCompile.merge, merge1, append_choice, append_interleave. destruct a as [[[[]|] p|[] p]|], b as [[[]|] q|[] q]; nf; destruct p; cbn; nf.
Qed.
Lemma NF_define_in t i r st : NF (define_in t i r st).
Proof. unfold define_in. destruct (assoc _ _); nf. apply NF_fbind; [apply NF_merge | nf]. Qed.
Lemma NF_define c i r : forall st, NF (define c i r st).
Proof.
  revert c. fix IH 1. intros c st. destruct c as [f t ns d|p f o ns d|p|p t|p n|p|p]; cbn [define]; nf; try apply NF_define_in.
  - apply NF_bind; [nf|]. intros b st' _. destruct b; nf. apply IH.
  - destruct p as [f t ns d|p f o ns d|p|p t|p n|p|p]; nf. apply NF_bind; [nf|]. intros b st' _. destruct b; nf. apply NF_bind; [nf|]. intros. apply IH.
Qed.
Lemma NF_take t st : NF (take_start t st).
Proof. apply NF_bind; [nf|]. intros [r|] st' _; nf. apply NF_bind; [unfold take_cell; destruct (nth _ _ _); nf|]. intros [d|] ? _; nf. Qed.
Lemma NF_declaration c d st : NF (compile_declaration c d st).
Proof.
  assert (HN : forall p u, NF (declare_namespace c p u st)) by (intros p u; destruct c; cbn; nf).
  assert (HD : forall p u, NF (declare_datatype c p u st)) by (intros p u; destruct c; cbn; nf; destruct (assoc _ _); nf).
  destruct d as [p [|u]|[p|] [|u]|p u]; cbn; nf; auto.
Qed.
Lemma NF_declarations l : forall c st, NF (compile_declarations c l st).
Proof. induction l as [|d l IH]; intros c st; cbn [compile_declarations]; nf. apply NF_bind; [apply NF_declaration | intros; apply IH]. Qed.

Variable L : list path.
Variable Rd : path -> Prop.   (* the files that can be read *)
Definition Lr (f : path) : Prop := In f L /\ Rd f.
Definition budget (d : nat) (c : ctx) : Prop := NoDup (inc_files c) /\ incl (inc_files c) L /\ List.length L < d + List.length (inc_files c).

Section Rec.
Variable d : nat.
Variable rp : ctx -> spat -> CM mpat.
Variable ri : ctx -> list gcontent -> CM unit.
Hypothesis Hri : forall c f s l st, budget d c -> file_of c = Some f -> Lr f -> fs f = inl s -> file_contents s l -> NF (ri c l st).
Notation compile_pattern := (compile_pattern O C fs rp ri).
Notation compile_content := (compile_content O C fs rp ri).
Notation compile_override := (compile_override O C fs rp ri).
Definition N_pat (p : spat) : Prop := forall c f st, budget (S d) c -> file_of c = Some f -> ~ external_in p ->
  (forall h f', in_pattern h p -> resolve f (lit_value h) = Some f' -> Lr f') -> NF (compile_pattern c p st).
Definition N_con (g : gcontent) : Prop := forall c f st, budget (S d) c -> file_of c = Some f -> ~ has_external g ->
  (forall h f', has_include h g -> resolve f (lit_value h) = Some f' -> Lr f') -> NF (compile_content c g st).
Definition N_ovr (i : icontent) : Prop := forall c f st, budget (S d) c -> file_of c = Some f ->
  (forall n how p, i = IDefine n how p -> ~ external_in p /\ forall h f', in_pattern h p -> resolve f (lit_value h) = Some f' -> Lr f') -> NF (compile_override c i st).
Lemma NF_citer {A} (f : A -> CM unit) l : (forall x st, In x l -> NF (f x st)) -> forall st, NF (citer f l st).
Proof.
  induction l as [|x l IH]; intros H st; cbn [citer]; nf. apply NF_bind; [apply H; left; reflexivity|]. intros. apply IH. intros; apply H; right; assumption.
Qed.
Lemma term : (forall p, N_pat p) /\ (forall g, N_con g) /\ (forall i, N_ovr i).
Proof.
  assert (H_one : forall W F, (forall c q st, compile_pattern c (W q) st = (do x <- compile_pattern c q; cret (F x)) st) ->
    (forall q, child q (W q)) -> forall q, N_pat q -> N_pat (W q)).
  { intros W F HW Hc q IH c f st HB Hf He Hi. rewrite HW. apply NF_bind; [|nf]. eapply IH; [exact HB | exact Hf | intros K; apply He; eapply Ei_child; [apply Hc | exact K] |].
    intros h f' K. apply Hi. eapply Ip_child; [apply Hc | exact K]. }
  assert (H_two : forall W F, (forall c a b st, compile_pattern c (W a b) st = (do x <- compile_pattern c a; do y <- compile_pattern c b; cret (F x y)) st) ->
    (forall a b, child a (W a b)) -> (forall a b, child b (W a b)) -> forall a b, N_pat a -> N_pat b -> N_pat (W a b)).
  { intros W F HW Hc Hc' a b IHa IHb c f st HB Hf He Hi. rewrite HW. apply NF_bind; [|intros; apply NF_bind; [|nf]].
    - eapply IHa; [exact HB | exact Hf | intros K; apply He; eapply Ei_child; [apply Hc | exact K] |].
      intros h f' K. apply Hi. eapply Ip_child; [apply Hc | exact K].
    - eapply IHb; [exact HB | exact Hf | intros K; apply He; eapply Ei_child; [apply Hc' | exact K] |].
      intros h f' K. apply Hi. eapply Ip_child; [apply Hc' | exact K]. }
  assert (H_el : forall nc p, N_pat p -> N_pat (SElement nc p)).
  { intros nc p IH c f st HB Hf He Hi. cbn [SchemaCompile.compile_pattern]. apply NF_bind; [apply NF_nameclass|]. intros n st1 _.
    apply NF_bind; [unfold new_element; destruct (parent_attribute c); nf|]. intros c' st2 Ec. unfold new_element in Ec. destruct (parent_attribute c); [cbad Ec|]. cret Ec.
    apply NF_bind; [|nf]. eapply IH; [exact HB | exact Hf | intros K; apply He; eapply Ei_child; [constructor | exact K] |].
    intros h f' K. apply Hi. eapply Ip_child; [constructor | exact K]. }
  assert (H_at : forall nc p, N_pat p -> N_pat (SAttribute nc p)).
  { intros nc p IH c f st HB Hf He Hi. cbn [SchemaCompile.compile_pattern]. apply NF_bind; [apply NF_nameclass|]. intros n st1 _.
    apply NF_bind; [|nf]. eapply IH; [exact HB | exact Hf | intros K; apply He; eapply Ei_child; [constructor | exact K] |].
    intros h f' K. apply Hi. eapply Ip_child; [constructor | exact K]. }
  assert (H_li : forall p, N_pat p -> N_pat (SList p)) by (apply (H_one SList MList); [reflexivity | constructor]).
  assert (H_mi : forall p, N_pat p -> N_pat (SMixed p)) by (apply (H_one SMixed MMixed); [reflexivity | constructor]).
  assert (H_op : forall p, N_pat p -> N_pat (SOptional p)) by (apply (H_one SOptional MOptional); [reflexivity | constructor]).
  assert (H_ze : forall p, N_pat p -> N_pat (SZeroOrMore p)) by (apply (H_one SZeroOrMore MZeroOrMore); [reflexivity | constructor]).
  assert (H_on : forall p, N_pat p -> N_pat (SOneOrMore p)) by (apply (H_one SOneOrMore MOneOrMore); [reflexivity | constructor]).
  assert (H_gp : forall p, N_pat p -> N_pat (SGroup p)).
  { intros p IH c f st HB Hf He Hi. cbn [SchemaCompile.compile_pattern]. eapply IH; [exact HB | exact Hf | intros K; apply He; eapply Ei_child; [constructor | exact K] |].
    intros h f' K. apply Hi. eapply Ip_child; [constructor | exact K]. }
  assert (H_lp : forall a b, N_pat a -> N_pat b -> N_pat (SListPair a b)) by (apply (H_two SListPair (fun x y => MGroup (seq_members x ++ seq_members y))); [reflexivity | constructor | constructor]).
  assert (H_ip : forall a b, N_pat a -> N_pat b -> N_pat (SInterleavePair a b)) by (apply (H_two SInterleavePair (fun x y => MInterleave (inter_members x ++ inter_members y))); [reflexivity | constructor | constructor]).
  assert (H_cp : forall a b, N_pat a -> N_pat b -> N_pat (SChoicePair a b)) by (apply (H_two SChoicePair (fun x y => MChoice (choice_members x ++ choice_members y))); [reflexivity | constructor | constructor]).
  assert (H_id : forall i, N_pat (SIdent i)) by (intros i c f st _ _ _ _; cbn [SchemaCompile.compile_pattern]; apply NF_bind; [apply NF_acquire | nf]).
  assert (H_pa : forall i, N_pat (SParent i)) by (intros i c f st _ _ _ _; cbn [SchemaCompile.compile_pattern]; apply NF_bind; [apply NF_parent | nf]).
  assert (H_em : N_pat SEmpty) by (intros c f st _ _ _ _; nf).
  assert (H_te : N_pat SText) by (intros c f st _ _ _ _; nf).
  assert (H_na : N_pat SNotAllowed) by (intros c f st _ _ _ _; nf).
  assert (H_ex : forall h i, N_pat (SExternal h i)) by (intros h i c f st _ _ He _; exfalso; apply He; constructor).
  assert (H_va : forall n v, N_pat (SValue n v)).
  { intros n v c f st _ _ _ _. cbn [SchemaCompile.compile_pattern]. apply NF_bind; [apply NF_dtname|]. intros. apply NF_bind; [apply NF_lift, NF_value | nf]. }
  assert (H_da : forall n ps ex, (match ex with Some e => N_pat e | None => True end) -> N_pat (SData n ps ex)).
  { intros n ps ex IH c f st HB Hf He Hi. cbn [SchemaCompile.compile_pattern]. apply NF_bind; [apply NF_dtname|]. intros. apply NF_bind; [apply NF_lift, NF_name|]. intros.
    apply NF_bind; [|nf]. destruct ex as [e|]; nf. apply NF_bind; [|nf]. eapply IH; [exact HB | exact Hf | intros K; apply He; eapply Ei_child; [constructor | exact K] |].
    intros h f' K. apply Hi. eapply Ip_child; [constructor | exact K]. }
  assert (H_gr : forall l, Forall N_con l -> N_pat (SGrammar l)).
  { intros l Hl c f st HB Hf He Hi. cbn [SchemaCompile.compile_pattern]. apply NF_bind; [nf|]. intros g st1 Eg. unfold new_grammar in Eg. cinv Eg. cret Eg.
    apply NF_bind; [|intros; apply NF_take]. apply NF_citer. intros g st2 Hg. rewrite Forall_forall in Hl.
    eapply (Hl g Hg); [exact HB | exact Hf | intros K; apply He; eapply Ei_grammar; eassumption|]. intros h f' K. apply Hi. eapply Ip_grammar; eassumption. }
  assert (H_gd : forall n h p, N_pat p -> N_con (GDefine n h p)).
  { intros n h p IH c f st HB Hf He Hi. cbn [SchemaCompile.compile_content]. apply NF_bind; [|intros; apply NF_define].
    eapply IH; [exact HB | exact Hf | intros K; apply He; constructor; exact K|]. intros h' f' K. apply Hi. constructor; exact K. }
  assert (H_gv : forall l, Forall N_con l -> N_con (GDiv l)).
  { intros l Hl c f st HB Hf He Hi. cbn [SchemaCompile.compile_content]. apply NF_citer. intros g st2 Hg. rewrite Forall_forall in Hl.
    eapply (Hl g Hg); [exact HB | exact Hf | intros K; apply He; econstructor; eassumption|]. intros h f' K. apply Hi. econstructor; eassumption. }
  assert (H_gi : forall h i ov, (match ov with Some l => Forall N_ovr l | None => True end) -> N_con (GInclude h i ov)).
  { intros h i ov Hov c f st HB Hf He Hi. cbn [SchemaCompile.compile_content]. apply NF_bind; [unfold path_from; rewrite Hf; destruct (resolve _ _); nf|].
    intros f1 st1 E. unfold path_from in E. rewrite Hf in E. destruct (resolve f (lit_value h)) as [f2|] eqn:Er; [|cbad E]. cret E.
    assert (HL : Lr f1) by (eapply Hi; [constructor | exact Er]).
    apply NF_bind; [apply NF_cmap; unfold get_schema; destruct (fs f1); nf|]. intros s st2 E. apply cmap_err_ok, get_schema_ok in E. destruct E as (Es & _).
    apply NF_bind; [apply NF_bind; [apply NF_check_include | intros; apply NF_bind; nf]|]. intros inc st3 E.
    assert (Hnew : ~ In f1 (inc_files c)) by (unfold new_include in E; cinv E; eapply check_include_new; eassumption).
    apply new_include_ok in E. destruct E as (-> & _).
    apply NF_bind; [unfold inherit_prefix; destruct i as [i|]; nf; destruct (namespace_uri c _); nf; cbn; destruct (assoc _ _); nf|].
    intros inc st4 E. apply inherit_ok in E; [|exact I]. destruct E as [ns0 ->]. cbn [with_decls].
    apply NF_bind.
    - destruct ov as [l|]; nf. apply NF_citer. intros x st5 Hx. apply NF_cmap. rewrite Forall_forall in Hov. 
      apply (Hov x Hx _ f); [|exact Hf|].
      + destruct HB as (B1 & B2 & B3). split; [constructor; assumption|]. split; [intros y [<-|Hy]; [apply HL | auto]|]. cbn. lia.
      + intros n how p ->. split; [intros K; apply He; eapply He_override; eassumption|]. intros h' f' K. apply Hi. eapply Hi_override; eassumption.
    - intros [] st5 _. apply NF_bind.
      + apply NF_cmap. unfold compile_schema_with. apply NF_bind; [apply NF_declarations|]. intros c6 st6 E. apply declarations_ok in E; [|exact I]. destruct E as [-> (ns & dt & -> & _)]. cbn [with_decls is_include].
        assert (HB' : budget d (XInclude c f1 (List.length (ovrs st2)) ns dt)).
        { destruct HB as (B1 & B2 & B3). split; [constructor; assumption|]. split; [intros x [<-|Hx]; [apply HL | auto]|]. cbn. lia. }
        destruct s as [sd [p|l]]; cbn [s_top].
        * destruct p; nf. apply NF_bind; [|nf]. eapply Hri; [exact HB' | reflexivity | exact HL | exact Es | constructor].
        * apply NF_bind; [|nf]. eapply Hri; [exact HB' | reflexivity | exact HL | exact Es | constructor].
      + intros inc st6 _. unfold check_overrides. destruct inc; nf. destruct (find _ _) as [[? ?]|]; nf. }
  assert (H_ga : forall a, N_con (GAnnotation a)) by (intros a c f st _ _ _ _; nf).
  assert (H_if : forall n h p, N_pat p -> N_ovr (IDefine n h p)).
  { intros n h p IH c f st HB Hf Hi. destruct (Hi _ _ _ eq_refl) as [He Hi']. cbn [SchemaCompile.compile_override]. apply NF_bind; [|intros; apply NF_define].
    eapply IH; [exact HB | exact Hf | exact He | exact Hi']. }
  assert (H_iv : forall l, Forall N_ovr l -> N_ovr (IDiv l)) by (intros l _ c f st _ _ _; nf).
  assert (H_ia : forall a, N_ovr (IAnnotation a)) by (intros a c f st _ _ _; nf).
  split; [|split]; [apply (spat_ind' N_pat N_con N_ovr) | apply (gcontent_ind' N_pat N_con N_ovr) | apply (icontent_ind' N_pat N_con N_ovr)]; auto.
Qed.
End Rec.

Hypothesis no_ext : forall f s, Lr f -> fs f = inl s -> ~ file_external s.
Hypothesis closed : forall f f', Lr f -> Reads fs f f' -> Lr f'.
Lemma contents_NF d rp ri c f s l st :
  (forall c f s l st, budget d c -> file_of c = Some f -> Lr f -> fs f = inl s -> file_contents s l -> NF (ri c l st)) ->
  budget (S d) c -> file_of c = Some f -> Lr f -> fs f = inl s -> file_contents s l -> NF (compile_contents O C fs rp ri c l st).
Proof.
  intros Hri HB Hf HL Hs Hc. unfold compile_contents. apply NF_citer. intros g st1 Hg. pose proof (no_ext _ _ HL Hs) as Hx.
  assert (HR : forall h f', in_file h s -> resolve f (lit_value h) = Some f' -> Lr f').
  { intros h f' Hi Hr. eapply closed; [exact HL|]. exists s, h. auto. }
  eapply (proj1 (proj2 (term d rp ri Hri)) g); [exact HB | exact Hf | |].
  - intros K. apply Hx. destruct Hc; [eapply Fe_grammar; eassumption | apply Fe_pattern; eapply Ei_grammar; eassumption].
  - intros h f' K. apply HR. destruct Hc; [eapply If_grammar; eassumption | apply If_pattern; eapply Ip_grammar; eassumption].
Qed.
Lemma nested_NF d : forall c f s l st, budget d c -> file_of c = Some f -> Lr f -> fs f = inl s -> file_contents s l -> NF (snd (nested O C fs d) c l st).
Proof.
  induction d as [|d IH]; intros c f s l st HB Hf HL Hs Hc.
  - exfalso. destruct HB as (B1 & B2 & B3). pose proof (NoDup_incl_length B1 B2). lia.
  - cbn [nested]. destruct (nested O C fs d) as [rp ri] eqn:En. cbn [snd] in *. eapply contents_NF; eauto.
Qed.

(** [check] visits each cell once *)
Section Check.
Variable cs : list (str * option drule).
Definition okseen (seen : list nat) : Prop := NoDup seen /\ forall r, In r seen -> r < List.length cs.
Definition CK (f : list nat -> mpat -> fres rerror (list nat)) (n : nat) (p : mpat) : Prop :=
  forall seen, okseen seen -> n <= List.length seen -> NF (f seen p) /\ forall seen', f seen p = fok seen' -> okseen seen' /\ n <= List.length seen'.
Lemma CK_all f n l : Forall (CK f n) l -> forall seen, okseen seen -> n <= List.length seen ->
  NF (check_all f seen l) /\ forall seen', check_all f seen l = fok seen' -> okseen seen' /\ n <= List.length seen'.
Proof.
  induction 1 as [|x l Hx Hl IH]; intros seen Ho Hn; cbn [check_all].
  - split; [nf|]. intros seen' H. injection H as <-. auto.
  - destruct (Hx seen Ho Hn) as [K1 K2]. split.
    + apply NF_fbind; [exact K1|]. intros s1 E. apply K2 in E. apply IH; apply E.
    + intros seen' H. destruct (f seen x) as [[s1|?]|?|] eqn:E; try discriminate H. cbn in H. destruct (K2 s1 eq_refl) as [A B]. eapply IH; eassumption.
Qed.
Lemma check_NF d : forall n p, List.length cs < n + d -> CK (check_refs cs d) n p.
Proof.
  induction d as [d IH] using lt_wf_ind. intros n.
  induction p as [l IHl|l IHl|l IHl|p IHp| | | |p IHp|p IHp|p IHp|nc p IHp|nc p IHp|r|v|dt ex IHe|p IHp] using mpat_ind'; intros Hlt seen Ho Hn; rewrite check_eq;
    try (split; [nf | intros seen' H; injection H as <-; auto; fail]); try exact (IHp Hlt seen Ho Hn);
    try (apply CK_all; [rewrite Forall_forall in *; intros q Hq; exact (IHl q Hq Hlt) | assumption | assumption]).
  - destruct (in_dec Nat.eq_dec r seen) as [Hi|Hi]; [split; [nf | intros seen' H; injection H as <-; auto]|].
    destruct (nth r cs ([], None)) as [nm [R|]] eqn:En; [|split; [nf | intros ? H; discriminate H]].
    assert (Hr : r < List.length cs) by (destruct (Nat.lt_ge_cases r (List.length cs)) as [|Hge]; [assumption|]; rewrite nth_overflow in En by exact Hge; discriminate En).
    assert (Ho' : okseen (r :: seen)) by (destruct Ho as [O1 O2]; split; [constructor; assumption | intros x [<-|Hx]; auto]).
    assert (Hle : List.length (r :: seen) <= List.length cs).
    { destruct Ho' as [O1 O2]. rewrite <- (seq_length (List.length cs) 0). apply NoDup_incl_length; [exact O1|]. intros x Hx. apply in_seq. split; [lia | apply O2; exact Hx]. }
    cbn [List.length] in Hle. destruct d as [|d]; [lia|].
    destruct (IH d ltac:(lia) (S n) (rule_pattern R) ltac:(lia) (r :: seen) Ho' ltac:(cbn; lia)) as [K1 K2]. split; [exact K1|].
    intros seen' H. apply K2 in H. split; [apply H | lia].
  - destruct ex as [e|]; [eapply (IHe e eq_refl Hlt); assumption | split; [nf | intros seen' H; injection H as <-; auto]].
Qed.
End Check.
Lemma compile_NF d name : Lr name -> List.length L <= d -> NF (compile_grammar O C fs d name).
Proof.
  intros HL Hd. unfold compile_grammar. apply NF_bind; [unfold get_schema; destruct (fs name); nf|]. intros s st1 E. apply get_schema_ok in E. destruct E as (Es & _).
  apply NF_bind; [nf|]. intros c st2 E. unfold new_root in E. cinv E. cret E.
  pose proof (nested_NF d) as Hri. destruct (nested O C fs d) as [rp ri] eqn:En. cbn [snd] in Hri. apply NF_bind.
  - unfold compile_schema_with. apply NF_bind; [apply NF_declarations|]. intros c6 st6 E. apply declarations_ok in E; [|exact I]. destruct E as [-> (ns & dt & -> & _)]. cbn [with_decls is_include].
    assert (HB : forall t, budget (S d) (XRoot name t ns dt)) by (intros t; split; [constructor|]; split; [intros ? [] | cbn; lia]).
    destruct s as [sd [p|l]]; cbn [s_top].
    + apply NF_bind; [|intros; apply NF_bind; [apply NF_define | nf]].
      eapply (proj1 (term d rp ri Hri) p); [apply HB | reflexivity | intros K; apply (no_ext _ _ HL Es); constructor; exact K|].
      intros h f' K Hr. eapply closed; [exact HL|]. exists (Schema sd (TPattern p)), h. split; [exact Es|]. split; [constructor; exact K | exact Hr].
    + apply NF_bind; [|nf]. eapply contents_NF; [exact Hri | apply HB | reflexivity | exact HL | exact Es | constructor].
  - intros c' st3 _. apply NF_bind; [nf|]. intros u st4 _. destruct u; nf. apply NF_bind; [nf|]. intros r st5 _. destruct r as [r|]; nf.
    destruct (nth r (cells st5) _) as [nm [R|]]; nf. apply NF_fbind; [|nf]. apply (check_NF (cells st5) _ 0); [lia | split; [constructor | intros ? []] | cbn; lia].
Qed.
End Term.

(** ** more depth does not change a result *)
Section Mono.
Variable O : oracles.
Variable C : coracles.
Variable fs : filesys.
Definition leq {A} (x y : res A) : Prop := x = OutOfFuel \/ x = y.
Lemma leq_refl {A} (x : res A) : leq x x.
Proof. right; reflexivity. Qed.
Lemma leq_bind {A B} (m m' : CM A) (f f' : A -> CM B) st : leq (m st) (m' st) -> (forall a st', leq (f a st') (f' a st')) -> leq (cbind m f st) (cbind m' f' st).
Proof.
  intros [H|H] K; unfold cbind; rewrite H; [left; reflexivity|]. destruct (m' st) as [[[a st']|e]|p|]; cbn; try (right; reflexivity). apply K.
Qed.
Lemma leq_cmap {A} g (m m' : CM A) st : leq (m st) (m' st) -> leq (cmap_err g m st) (cmap_err g m' st).
Proof. intros [H|H]; unfold cmap_err; rewrite H; [left | right]; reflexivity. Qed.
Lemma leq_citer {A} (f f' : A -> CM unit) l : Forall (fun x => forall st, leq (f x st) (f' x st)) l -> forall st, leq (citer f l st) (citer f' l st).
Proof. induction 1 as [|x l Hx _ IH]; intros st; cbn [citer]; [apply leq_refl|]. apply leq_bind; auto. Qed.
Section Rec.
Variables (rp rp' : ctx -> spat -> CM mpat) (ri ri' : ctx -> list gcontent -> CM unit).
Hypothesis Hp : forall c p st, leq (rp c p st) (rp' c p st).
Hypothesis Hi : forall c l st, leq (ri c l st) (ri' c l st).
Notation P1 := (compile_pattern O C fs rp ri).
Notation P2 := (compile_pattern O C fs rp' ri').
Notation G1 := (compile_content O C fs rp ri).
Notation G2 := (compile_content O C fs rp' ri').
Notation V1 := (compile_override O C fs rp ri).
Notation V2 := (compile_override O C fs rp' ri').
Lemma leq_schema c s st (cp cp' : ctx -> spat -> CM mpat) (ci ci' : ctx -> list gcontent -> CM unit) :
  (forall c p st, leq (cp c p st) (cp' c p st)) -> (forall c l st, leq (ci c l st) (ci' c l st)) -> leq (compile_schema_with cp ci c s st) (compile_schema_with cp' ci' c s st).
Proof.
  intros Hcp Hci. unfold compile_schema_with. apply leq_bind; [apply leq_refl|]. intros c' st'. destruct (s_top s) as [p|l].
  - destruct (is_include c').
    + destruct p; try apply leq_refl. apply leq_bind; [apply Hci | intros; apply leq_refl].
    + apply leq_bind; [apply Hcp | intros; apply leq_refl].
  - apply leq_bind; [apply Hci | intros; apply leq_refl].
Qed.
Lemma mono : (forall p, forall c st, leq (P1 c p st) (P2 c p st)) /\ (forall g, forall c st, leq (G1 c g st) (G2 c g st)) /\ (forall i, forall c st, leq (V1 c i st) (V2 c i st)).
Proof.
  assert (H_ex : forall h i, forall c st, leq (P1 c (SExternal h i) st) (P2 c (SExternal h i) st)).
  { intros h i c st. cbn [SchemaCompile.compile_pattern]. destruct i; [apply leq_refl|]. apply leq_bind; [apply leq_refl|]. intros f st1. apply leq_bind; [apply leq_refl|]. intros s st2.
    apply leq_bind; [apply leq_refl|]. intros inc st3. destruct (s_top s); [apply leq_cmap, Hp|]. apply leq_bind; [apply leq_refl|]. intros. apply leq_bind; [apply Hi|]. intros; apply leq_refl. }
  assert (H_gr : forall l, Forall (fun g => forall c st, leq (G1 c g st) (G2 c g st)) l -> forall c st, leq (P1 c (SGrammar l) st) (P2 c (SGrammar l) st)).
  { intros l Hl c st. cbn [SchemaCompile.compile_pattern]. apply leq_bind; [apply leq_refl|]. intros g st1. apply leq_bind; [|intros; apply leq_refl].
    apply leq_citer. eapply Forall_impl; [|exact Hl]. cbn. auto. }
  assert (H_da : forall n ps ex, (match ex with Some e => forall c st, leq (P1 c e st) (P2 c e st) | None => True end) -> forall c st, leq (P1 c (SData n ps ex) st) (P2 c (SData n ps ex) st)).
  { intros n ps ex IH c st. cbn [SchemaCompile.compile_pattern]. do 2 (apply leq_bind; [apply leq_refl|]; intros). apply leq_bind; [|intros; apply leq_refl].
    destruct ex as [e|]; [|apply leq_refl]. apply leq_bind; [apply IH | intros; apply leq_refl]. }
  assert (H_gi : forall h i ov, (match ov with Some l => Forall (fun i => forall c st, leq (V1 c i st) (V2 c i st)) l | None => True end) -> forall c st, leq (G1 c (GInclude h i ov) st) (G2 c (GInclude h i ov) st)).
  { intros h i ov Hov c st. cbn [SchemaCompile.compile_content]. do 4 (apply leq_bind; [apply leq_refl|]; intros). apply leq_bind.
    - destruct ov as [l|]; [|apply leq_refl]. apply leq_citer. eapply Forall_impl; [|exact Hov]. cbn. intros x Hx st0. apply leq_cmap, Hx.
    - intros. apply leq_bind; [apply leq_cmap, leq_schema; assumption | intros; apply leq_refl]. }
  assert (H_gv : forall l, Forall (fun g => forall c st, leq (G1 c g st) (G2 c g st)) l -> forall c st, leq (G1 c (GDiv l) st) (G2 c (GDiv l) st)).
  { intros l Hl c st. cbn [SchemaCompile.compile_content]. apply leq_citer. eapply Forall_impl; [|exact Hl]. cbn. auto. }
  assert (H1 : forall p, forall c st, leq (P1 c p st) (P2 c p st)).
  { apply (spat_ind' (fun p => forall c st, leq (P1 c p st) (P2 c p st)) (fun g => forall c st, leq (G1 c g st) (G2 c g st)) (fun i => forall c st, leq (V1 c i st) (V2 c i st))); auto;
    intros; cbn [SchemaCompile.compile_pattern SchemaCompile.compile_content SchemaCompile.compile_override];
    repeat first [apply leq_refl | match goal with H : forall c st, leq _ _ |- _ => apply H end | apply leq_bind; [|intros]]. }
  assert (H3 : forall i, forall c st, leq (V1 c i st) (V2 c i st)).
  { intros [n h p|l|a] c st; cbn [SchemaCompile.compile_override]; try apply leq_refl. apply leq_bind; [apply H1 | intros; apply leq_refl]. }
  split; [exact H1|]. split; [|exact H3].
  apply (gcontent_ind' (fun p => forall c st, leq (P1 c p st) (P2 c p st)) (fun g => forall c st, leq (G1 c g st) (G2 c g st)) (fun i => forall c st, leq (V1 c i st) (V2 c i st))); auto;
    intros; cbn [SchemaCompile.compile_content]; try apply leq_refl. apply leq_bind; [apply H1 | intros; apply leq_refl].
Qed.
Lemma mono_contents c l st : leq (compile_contents O C fs rp ri c l st) (compile_contents O C fs rp' ri' c l st).
Proof. unfold compile_contents. apply leq_citer. apply Forall_forall. intros g _ st1. apply mono. Qed.
End Rec.
Lemma nested_mono d : (forall c p st, leq (fst (nested O C fs d) c p st) (fst (nested O C fs (S d)) c p st)) /\ (forall c l st, leq (snd (nested O C fs d) c l st) (snd (nested O C fs (S d)) c l st)).
Proof.
  induction d as [|d [IH1 IH2]]; [split; left; reflexivity|]. 
  change (nested O C fs (S (S d))) with (let (rp, ri) := nested O C fs (S d) in (compile_pattern O C fs rp ri, compile_contents O C fs rp ri)).
  change (nested O C fs (S d)) with (let (rp, ri) := nested O C fs d in (compile_pattern O C fs rp ri, compile_contents O C fs rp ri)) at 1 3.
  destruct (nested O C fs d) as [rp ri], (nested O C fs (S d)) as [rp' ri']. cbn [fst snd] in *. split; intros.
  - apply mono; assumption.
  - apply mono_contents; assumption.
Qed.
Lemma compile_mono1 d name : leq (compile_grammar O C fs d name) (compile_grammar O C fs (S d) name).
Proof.
  unfold compile_grammar. destruct (nested_mono d) as [H1 H2]. destruct (nested O C fs d) as [rp ri], (nested O C fs (S d)) as [rp' ri']. cbn [fst snd] in *.
  apply leq_bind; [apply leq_refl|]. intros s st. apply leq_bind; [apply leq_refl|]. intros c st1. apply leq_bind; [|intros; apply leq_refl].
  apply leq_schema; intros; [apply mono | apply mono_contents]; assumption.
Qed.
Lemma compile_mono d d' name : d <= d' -> NF (compile_grammar O C fs d name) -> compile_grammar O C fs d' name = compile_grammar O C fs d name.
Proof.
  intros H HN. induction H as [|d' H IH]; [reflexivity|]. destruct (compile_mono1 d' name) as [K|K]; [|congruence]. rewrite IH in K. contradiction.
Qed.
End Mono.

(** C33: compiling a finite set of files terminates, and a cycle of includes is never accepted *)
Theorem compile_terminates_in O C fs L (R : path -> Prop) name : (forall f s, In f L -> R f -> fs f = inl s -> ~ file_external s) ->
  (forall f f', In f L -> Reads fs f f' -> In f' L) -> (forall f f', R f -> Reads fs f f' -> R f') -> In name L -> R name ->
  exists r, r <> OutOfFuel /\ Main.settles (fun d => compile_grammar O C fs d name) r.
Proof.
  intros H1 H2 H2' H3 H3'. pose proof (compile_NF O C fs L R ltac:(intros f s [A B]; apply H1; assumption) ltac:(intros f f' [A B] K; split; eauto) (List.length L) name (conj H3 H3') ltac:(lia)) as HN.
  exists (compile_grammar O C fs (List.length L) name). split; [exact HN|]. exists (List.length L). intros m Hm. apply compile_mono; assumption.
Qed.
Theorem compile_terminates O C fs L name : (forall f s, In f L -> fs f = inl s -> ~ file_external s) -> (forall f f', In f L -> Reads fs f f' -> In f' L) -> In name L ->
  exists r, r <> OutOfFuel /\ Main.settles (fun d => compile_grammar O C fs d name) r.
Proof. intros H1 H2 H3. apply (compile_terminates_in O C fs L (fun _ => True)); [intros f s A _; apply H1; exact A | exact H2 | auto | exact H3 | exact I]. Qed.
