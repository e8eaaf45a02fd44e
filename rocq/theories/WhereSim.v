(** * WhereSim: without its positions the compiler of Where.v is that of Located.v. *)
From Coq Require Import String Lia.
From Verif Require Import Base Datatype Facets Store Compile Syntax SchemaCompile Diag Located Where WhereSpec WhereProof.

Definition sim {A B} (er : A -> B) (m : WM A) (m' : CM B) : Prop := forall st, forget er (m st) = m' (est st).

Lemma sim_ret {A B} (er : A -> B) a b : er a = b -> sim er (wret a) (cret b).
Proof. intros <- st. reflexivity. Qed.
Lemma sim_err {A B} (er : A -> B) e e' : eerr e = e' -> sim er (werr e) (cerr e').
Proof. intros <- st. reflexivity. Qed.
Lemma sim_panic {A B} (er : A -> B) p : sim er (wpanic p) (cpanic p). Proof. intros st. reflexivity. Qed.
Lemma sim_fuel {A B} (er : A -> B) : sim er wfuel cfuel. Proof. intros st. reflexivity. Qed.
Lemma sim_bind {A A' B B'} (ea : A -> A') (eb : B -> B') m m' (f : A -> WM B) f' :
  sim ea m m' -> (forall a, sim eb (f a) (f' (ea a))) -> sim eb (wbind m f) (cbind m' f').
Proof.
  intros H F st. unfold wbind, cbind. rewrite <- H. destruct (m st) as [[[a st']|e]|p|]; cbn; auto. apply F.
Qed.
Lemma sim_map_err {A B} (er : A -> B) a m m' : sim er m m' -> sim er (wmap_err (WInclude a) m) (cmap_err EInclude m').
Proof. intros H st. unfold wmap_err, cmap_err. rewrite <- H. destruct (m st) as [[[x st']|e]|p|]; reflexivity. Qed.
Lemma sim_iter {A} (f : A -> WM unit) f' l : Forall (fun x => sim same (f x) (f' x)) l -> sim same (witer f l) (citer f' l).
Proof. induction 1 as [|x l H _ IH]; [now apply sim_ret|]. cbn. eapply sim_bind; [exact H | intros _; exact IH]. Qed.

Lemma map_upd {A B} (h : A -> B) : forall r x l, map h (upd r x l) = upd r (h x) (map h l).
Proof. intros r x l. revert r. induction l as [|y l IH]; destruct r; cbn; congruence. Qed.
Lemma upd_same {A B} (h : A -> B) : forall l r x d, h x = h (nth r l d) -> map h (upd r x l) = map h l.
Proof. induction l as [|y l IH]; destruct r; cbn; intros x d E; auto; [congruence | f_equal; eauto]. Qed.
Lemma cell_e cs r n : nth r (map ecell cs) (n, None) = ecell (nth r cs (n, None)).
Proof. exact (map_nth ecell cs (n, None) r). Qed.
Lemma ovr_e os o : nth o (map (map eovr) os) [] = map eovr (nth o os []).
Proof. exact (map_nth (map eovr) os [] o). Qed.
Lemma find_map {A B} (h : A -> B) (f : B -> bool) : forall l, find f (map h l) = option_map h (find (fun x => f (h x)) l).
Proof. induction l as [|x l IH]; [reflexivity|]. cbn. now destruct (f (h x)). Qed.
Lemma find_ext {A} (f g : A -> bool) : forall l, (forall x, f x = g x) -> find f l = find g l.
Proof. induction l as [|x l IH]; intros E; [reflexivity|]. cbn. rewrite E, IH by exact E. reflexivity. Qed.
Lemma assoc_e id : forall l, assoc id (map eovr l) = option_map snd (assoc id l).
Proof. induction l as [|[k v] l IH]; [reflexivity|]. cbn. destruct (str_eqb k id); auto. Qed.

Lemma sim_new_table : sim same wnew_table new_table. Proof. intros st. reflexivity. Qed.
Lemma sim_new_ovr : sim same wnew_ovr new_ovr.
Proof. intros st. cbn. unfold new_ovr, est. cbn. rewrite map_app, map_length. reflexivity. Qed.
Lemma sim_root f : sim ectx (wnew_root f) (new_root f).
Proof. apply (sim_bind same); [apply sim_new_table | intros t; now apply sim_ret]. Qed.
Lemma sim_check_include a f : forall c, sim same (wcheck_include c a f) (check_include (ectx c) f).
Proof.
  induction c; cbn; auto; try (now apply sim_ret). destruct (path_eqb f file); [now apply sim_err | exact IHc].
Qed.
Lemma sim_include c a f : sim ectx (wnew_include c a f) (new_include (ectx c) f).
Proof.
  apply (sim_bind same); [apply sim_check_include | intros _]. apply (sim_bind same); [apply sim_new_ovr | intros o; now apply sim_ret].
Qed.
Lemma sim_grammar c : sim ectx (wnew_grammar c) (new_grammar (ectx c)).
Proof. apply (sim_bind same); [apply sim_new_table | intros t; now apply sim_ret]. Qed.
Lemma attribute_e : forall c, parent_attribute (ectx c) = match wparent_attribute c with Some _ => true | None => false end.
Proof. induction c; cbn; auto. Qed.
Lemma sim_element c a : sim ectx (wnew_element c a) (new_element (ectx c)).
Proof. unfold wnew_element, new_element. rewrite attribute_e. destruct (wparent_attribute c); [now apply sim_err | now apply sim_ret]. Qed.
Lemma sim_declare_ns c p u : sim ectx (wdeclare_namespace c p u) (declare_namespace (ectx c) p u).
Proof. destruct c; cbn; try apply sim_panic; apply sim_ret; destruct (assoc p ns); reflexivity. Qed.
Lemma sim_declare_dt c p u : sim ectx (wdeclare_datatype c p u) (declare_datatype (ectx c) p u).
Proof. destruct c; cbn; try apply sim_panic; destruct (assoc p dts); try (now apply sim_err); now apply sim_ret. Qed.
Lemma sim_decls : forall l c, sim ectx (wcompile_declarations c l) (compile_declarations (ectx c) l).
Proof.
  induction l as [|d l IH]; intros c; [now apply sim_ret|]. cbn. eapply sim_bind; [|intros c'; apply IH].
  destruct d as [p []|[p|] []|p u]; cbn; try apply sim_panic; try apply sim_declare_ns; try apply sim_declare_dt; now apply sim_ret.
Qed.

(** ** Definitions *)
Definition erm (r : fres werror wrule) : fres rerror drule :=
  match r with Ok (inl a) => fok (erule a) | Ok (inr e) => ferr (eerr e) | Panic p => Panic p | OutOfFuel => OutOfFuel end.
Lemma merge_e n a b : erm (wmerge n a b) = SchemaCompile.merge n (option_map erule a) (erule b).
Proof.
  destruct a as [a|]; [|reflexivity]. cbn [wmerge option_map SchemaCompile.merge].
  destruct a as [a [[]|] pa|a [] pa], b as [b [[]|] pb|b [] pb]; cbn; try reflexivity;
  destruct pa; cbn; try reflexivity; destruct pb; cbn; rewrite ?map_app; reflexivity.
Qed.
Lemma sim_define_in t n r : sim same (wdefine_in t n r) (define_in t n (erule r)).
Proof.
  intros st. unfold wdefine_in, define_in. cbn [tables est cells]. destruct (assoc n (nth t (wtables st) [])) as [k|] eqn:E.
  - rewrite cell_e. cbn [ecell snd]. assert (M := merge_e n (snd (nth k (wcells st) (n, None))) r). unfold option_map in M.
    destruct (nth k (wcells st) (n, None)) as [m [x|]]; cbn [snd] in *; rewrite <- M;
      [destruct (wmerge n (Some x) r) as [[y|e]|p|] | destruct (wmerge n None r) as [[y|e]|p|]]; cbn; try reflexivity;
      unfold est; cbn; rewrite map_upd; reflexivity.
  - cbn. unfold est. cbn. rewrite map_app, map_length. reflexivity.
Qed.
Lemma sim_get_ovr o n : sim (option_map snd) (wget_ovr o n) (get_ovr o n).
Proof. intros st. cbn. unfold get_ovr. cbn. rewrite ovr_e, assoc_e. reflexivity. Qed.
Lemma mark_e id : forall l, map eovr (mark id l) = set_assoc id true (map eovr l).
Proof. induction l as [|[k [a b]] l IH]; [reflexivity|]. cbn. rewrite IH. destruct (str_eqb k id); reflexivity. Qed.
Lemma sim_mark o n : sim same (wmark_ovr o n) (mark_ovr o n).
Proof. intros st. cbn. unfold mark_ovr, est. cbn. rewrite map_upd, mark_e, ovr_e. reflexivity. Qed.
Lemma sim_insert o n a : sim same (winsert_ovr o n a) (insert_ovr o n).
Proof. intros st. cbn. unfold insert_ovr, est. cbn. rewrite map_upd, map_app, ovr_e. reflexivity. Qed.
Lemma sim_define n r : forall c, sim same (wdefine c n r) (define (ectx c) n (erule r)).
Proof.
  fix IH 1. intros [f t ns d|p f o ns d|p|p t|p i sp|p|p a]; cbn; try apply sim_panic; try apply sim_define_in.
  - eapply sim_bind; [apply sim_get_ovr|]. intros [x|]; cbn; [apply sim_mark | apply IH].
  - destruct p as [| q f o ns d | | | | |]; cbn; try apply sim_panic. eapply sim_bind; [apply sim_get_ovr|].
    intros [x|]; cbn; [apply sim_panic|]. eapply (sim_bind same); [apply sim_insert | intros _; apply IH].
Qed.
Lemma sim_acquire_in t n : sim same (wacquire_in t n) (acquire_in t n).
Proof.
  intros st. unfold wacquire_in, acquire_in. cbn. destruct (assoc n (nth t (wtables st) [])); cbn; [reflexivity|].
  unfold est. cbn. rewrite map_app, map_length. reflexivity.
Qed.
Lemma sim_acquire_impl n : forall c, sim same (wacquire_ref_impl c n) (acquire_ref_impl (ectx c) n).
Proof. induction c; cbn; auto using sim_acquire_in. Qed.
Lemma sim_undefined t : sim same (wundefined_in t) (undefined_in t).
Proof.
  intros st. cbn. unfold undefined_in, same, est. cbn. unfold fok. do 3 f_equal. f_equal. apply find_ext. intros [k r].
  assert (E := cell_e (wcells st) r []). match goal with |- ?L = ?R => change L with (match snd (nth r (wcells st) ([] : str, None)) with None => true | Some _ => false end); change R with (match snd (nth r (map ecell (wcells st)) ([] : str, None)) with None => true | Some _ => false end) end.
  rewrite E. clear E. match goal with |- context [ecell ?x] => generalize x end. intros [m [x|]]; reflexivity.
Qed.
Lemma sim_get_ref t n : sim same (wget_ref_in t n) (get_ref_in t n). Proof. intros st. reflexivity. Qed.
Lemma sim_take r : sim (option_map erule) (wtake_cell r) (take_cell r).
Proof.
  intros st. unfold wtake_cell, take_cell. cbn [cells est]. rewrite cell_e. match goal with |- context [ecell ?x] => change x with (nth r (wcells st) ([], None)) end.
  destruct (nth r (wcells st) ([], None)) as [n d]. unfold ecell at 1. cbn [fst snd].
  cbn. unfold est. cbn. rewrite map_upd. reflexivity.
Qed.
Lemma pat_e r : epat (wrule_pattern r) = rule_pattern (erule r). Proof. now destruct r. Qed.

Section S.
Variable O : oracles.
Variable C : coracles.
Variable fs : lfilesys.
Variable flen : path -> N.

Lemma sim_get f : sim same (wget_schema fs f) (lget_schema fs f).
Proof. intros st. unfold wget_schema, lget_schema. destruct (fs f); reflexivity. Qed.
Lemma sim_conv {A B} (er : A -> B) c sp k m : (forall a, sim er (k a) m) -> sim er (wconv flen c sp k) (conv flen (ectx c) sp m).
Proof. intros H. unfold wconv, conv. destruct (file_of (ectx c)); [destruct (in_file flen p sp)|]; auto; apply sim_panic. Qed.
Lemma sim_namespace c sp p : sim same (wnamespace flen c sp p) (conv_err flen (ectx c) sp (namespace_uri_for_prefix (ectx c) p)).
Proof.
  unfold wnamespace, namespace_uri_for_prefix, conv_err. destruct (namespace_uri (ectx c) p); [now apply sim_ret|].
  apply sim_conv. intros a. now apply sim_err.
Qed.
Lemma sim_nameclass c el : forall n, sim same (wcompile_nameclass flen c el n) (lcompile_nameclass flen (ectx c) el n).
Proof.
  fix IH 1. intros [[i|p l|u l] sp|nm sp ex|ex|a b|a]; cbn; try (now apply sim_ret).
  - eapply sim_bind; [apply sim_namespace | intros u; now apply sim_ret].
  - eapply (sim_bind same). { destruct ex as [e|]; [|now apply sim_ret]. eapply sim_bind; [apply IH | intros e'; now apply sim_ret]. }
    intros e. eapply (sim_bind same). { destruct nm; first [apply sim_namespace | now apply sim_ret]. } intros u. now apply sim_ret.
  - eapply (sim_bind same). { destruct ex as [e|]; [|now apply sim_ret]. eapply sim_bind; [apply IH | intros e'; now apply sim_ret]. }
    intros e. now apply sim_ret.
  - eapply sim_bind; [apply IH | intros x]. eapply sim_bind; [apply IH | intros y; now apply sim_ret].
  - apply IH.
Qed.
Lemma sim_recursion sp n : forall c, sim same (wcheck_ref_recursion flen c sp n) (lcheck_ref_recursion flen (ectx c) sp n).
Proof.
  induction c; cbn [wcheck_ref_recursion ectx lcheck_ref_recursion]; auto; try (now apply sim_ret).
  destruct (str_eqb id n); [|now apply sim_ret]. apply (sim_conv same (YDefine c id sp0)). intros a. now apply sim_err.
Qed.
Lemma sim_acquire c sp n : sim same (wacquire_ref flen c sp n) (lacquire_ref flen (ectx c) sp n).
Proof. eapply sim_bind; [apply sim_recursion | intros _; apply sim_acquire_impl]. Qed.
Lemma sim_parent sp n : forall c, sim same (wacquire_parent_ref flen c sp n) (lacquire_parent_ref flen (ectx c) sp n).
Proof.
  induction c; cbn [wacquire_parent_ref ectx lacquire_parent_ref]; auto using sim_acquire.
  apply (sim_conv same (YRoot file tbl ns dts)). intros a. now apply sim_err.
Qed.
Lemma sim_inherit c inc inh : sim ectx (winherit_prefix flen c inc inh) (linherit_prefix flen (ectx c) (ectx inc) inh).
Proof.
  destruct inh as [[sp i]|]; cbn; [|now apply sim_ret]. destruct (namespace_uri (ectx c) (ik_string i)); [apply sim_declare_ns|].
  apply sim_conv. intros a. now apply sim_err.
Qed.
Lemma sim_dtname c n : sim same (wcompile_dtname flen c n) (conv_err flen (ectx c) (library_span n) (compile_dtname (ectx c) (erase_dt n))).
Proof.
  destruct n as [| |sp p lsp l|usp u lsp l]; cbn; try (now apply sim_ret). unfold conv_err, cbind, try_datatype_uri, wbind.
  destruct (datatype_uri (ectx c) p); intros st; cbn; [reflexivity|].
  unfold wconv, conv. destruct (file_of (ectx c)); [destruct (in_file flen p0 sp)|]; reflexivity.
Qed.
Lemma sim_lift {A} c at_ (x : fres dt_error A) : sim same (wlift_dt flen c at_ x) (conv_dt flen (ectx c) at_ x).
Proof.
  intros st. unfold wlift_dt, conv_dt, lift_dt. destruct x as [[a|e]|p|]; cbn; try reflexivity. destruct (at_ e) as [sp|]; [|reflexivity].
  unfold wconv, conv. destruct (file_of (ectx c)); [destruct (in_file flen p sp)|]; reflexivity.
Qed.
Lemma sim_overrides c f : sim same (wcheck_overrides c f) (check_overrides (ectx c)).
Proof.
  destruct c; cbn; try apply sim_panic. intros st. cbn. rewrite ovr_e.
  induction (nth ov (wovrs st) []) as [|[k [a b]] l IH]; cbn; [reflexivity|]. destruct b; cbn; [exact IH | reflexivity].
Qed.
Lemma sim_start t (missing : WM wpat) : sim epat missing (cerr EStartRuleNotDefined) -> sim epat (wtake_start t missing) (take_start t).
Proof.
  intros M. eapply sim_bind; [apply sim_get_ref|]. intros [r|]; cbn; [|exact M]. eapply sim_bind; [apply sim_take|].
  intros [d|]; cbn; [now apply sim_ret; apply pat_e | exact M].
Qed.
Lemma sim_start_at c sp t : sim epat (wtake_start t (wconv flen c sp (fun a => werr (WStartRuleNotDefined a)))) (conv_err flen (ectx c) sp (take_start t)).
Proof.
  intros st. unfold conv_err. rewrite <- (sim_start t (werr (WStartRuleNotDefined (Path false [], (0, 0)%N))) (sim_err _ _ _ eq_refl)).
  unfold wtake_start, wbind, wget_ref_in. generalize (lit "start"). intros s. cbn. destruct (assoc s (nth t (wtables st) [])) as [r|]; cbn.
  - unfold wtake_cell. destruct (nth r (wcells st) ([], None)) as [n [d|]]; cbn; [reflexivity|].
    unfold wconv, conv. destruct (file_of (ectx c)); [destruct (in_file flen p sp)|]; reflexivity.
  - unfold wconv, conv. destruct (file_of (ectx c)); [destruct (in_file flen p sp)|]; reflexivity.
Qed.
Lemma table_e c : table_of (ectx c) = wtable_of c. Proof. now destruct c. Qed.
Lemma sim_path c h : sim same (wpath_from c h) (path_from (ectx c) h).
Proof. unfold wpath_from, path_from. destruct (file_of (ectx c)); [destruct (resolve p (lit_value h)); [now apply sim_ret|]|]; apply sim_panic. Qed.
Lemma seq_e p : map epat (wseq_members p) = seq_members (epat p). Proof. now destruct p. Qed.
Lemma inter_e p : map epat (winter_members p) = inter_members (epat p). Proof. now destruct p. Qed.
Lemma choice_e p : map epat (wchoice_members p) = choice_members (epat p). Proof. now destruct p. Qed.
Lemma rule_e a how p : erule (wrule_of a how p) = rule_of how (epat p). Proof. now destruct how. Qed.

Definition psim (rp : wctx -> lspat -> WM wpat) (rp' : ctx -> lspat -> CM mpat) : Prop := forall c p, sim epat (rp c p) (rp' (ectx c) p).
Definition csim (ri : wctx -> list lgcontent -> WM unit) (ri' : ctx -> list lgcontent -> CM unit) : Prop := forall c l, sim same (ri c l) (ri' (ectx c) l).

Lemma sim_schema rp rp' ri ri' c s : psim rp rp' -> csim ri ri' ->
  sim ectx (wcompile_schema_with rp ri c s) (lcompile_schema_with rp' ri' (ectx c) s).
Proof.
  intros HP HI. eapply sim_bind; [apply sim_decls|]. intros c'.
  assert (L : forall l, sim ectx (wbind (ri c' l) (fun _ => wret c')) (cbind (ri' (ectx c') l) (fun _ => cret (ectx c')))).
  { intros l. eapply sim_bind; [apply HI | intros _; now apply sim_ret]. }
  destruct (ls_top s) as [p|l]; [|apply L].
  assert (IE : is_include (ectx c') = wis_include c') by now destruct c'. rewrite IE. destruct (wis_include c').
  - destruct p; try (now apply sim_err). apply L.
  - eapply sim_bind; [apply HP|]. intros r. eapply sim_bind; [apply (sim_define (lit "start") (QAssign (wfile c', (0, 0)%N) None r)) | intros _; now apply sim_ret].
Qed.

Section F.
Variables (rp : wctx -> lspat -> WM wpat) (rp' : ctx -> lspat -> CM mpat).
Variables (ri : wctx -> list lgcontent -> WM unit) (ri' : ctx -> list lgcontent -> CM unit).
Hypothesis HP : psim rp rp'.
Hypothesis HI : csim ri ri'.
Lemma sim_pattern : forall p c, sim epat (wcompile_pattern O C fs flen rp ri c p) (lcompile_pattern O C fs flen rp' ri' (ectx c) p)
with sim_content : forall g c, sim same (wcompile_content O C fs flen rp ri c g) (lcompile_content O C fs flen rp' ri' (ectx c) g)
with sim_override : forall i c, sim same (wcompile_override O C fs flen rp ri c i) (lcompile_override O C fs flen rp' ri' (ectx c) i).
Proof.
  - intros p c. destruct p; cbn; try (now apply sim_ret).
    + eapply sim_bind; [apply sim_nameclass | intros n]. eapply sim_bind; [apply sim_conv; intros a; apply sim_element | intros c'].
      eapply sim_bind; [apply sim_pattern | intros x; now apply sim_ret].
    + eapply sim_bind; [apply sim_nameclass | intros n]. eapply (sim_bind ectx); [apply sim_conv; intros a; now apply sim_ret | intros c'].
      eapply sim_bind; [apply sim_pattern | intros x; now apply sim_ret].
    + eapply sim_bind; [apply sim_pattern | intros x; now apply sim_ret].
    + eapply sim_bind; [apply sim_pattern | intros x; now apply sim_ret].
    + intros st. assert (A := sim_acquire c sp i st). unfold wconv, conv, wbind, cbind in *.
      destruct (file_of (ectx c)); [destruct (in_file flen p sp)|]; try reflexivity. rewrite <- A.
      destruct (wacquire_ref flen c sp i st) as [[[r st']|e]|q|]; reflexivity.
    + intros st. assert (A := sim_parent sp i c st). unfold wconv, conv, wbind, cbind in *.
      destruct (file_of (ectx c)); [destruct (in_file flen p sp)|]; try reflexivity. rewrite <- A.
      destruct (wacquire_parent_ref flen c sp i st) as [[[r st']|e]|q|]; reflexivity.
    + destruct inherit; [apply sim_panic|]. eapply sim_bind; [apply sim_path | intros f]. apply sim_conv. intros a.
      eapply sim_bind; [apply sim_map_err, sim_get | intros s]. eapply sim_bind; [apply sim_include | intros inc]. unfold same.
      destruct (ls_top s) as [q|l]; [apply sim_map_err, HP|]. eapply sim_bind; [apply sim_grammar | intros g]. eapply sim_bind; [apply HI | intros _].
      rewrite table_e. eapply sim_bind; [apply sim_undefined | intros [n|]]; [now apply sim_err | apply sim_start; now apply sim_err].
    + eapply sim_bind; [apply sim_grammar | intros g]. eapply sim_bind; [|intros _; rewrite table_e; apply sim_start_at].
      apply sim_iter. induction l as [|x l IH]; constructor; [apply sim_content | exact IH].
    + apply sim_pattern.
    + eapply sim_bind; [apply sim_pattern | intros x]. eapply sim_bind; [apply sim_pattern | intros y]. apply sim_ret. cbn. now rewrite map_app, !seq_e.
    + eapply sim_bind; [apply sim_pattern | intros x]. eapply sim_bind; [apply sim_pattern | intros y]. apply sim_ret. cbn. now rewrite map_app, !inter_e.
    + eapply sim_bind; [apply sim_pattern | intros x]. eapply sim_bind; [apply sim_pattern | intros y]. apply sim_ret. cbn. now rewrite map_app, !choice_e.
    + eapply sim_bind; [apply sim_pattern | intros x; now apply sim_ret].
    + eapply sim_bind; [apply sim_pattern | intros x; now apply sim_ret].
    + eapply sim_bind; [apply sim_pattern | intros x; now apply sim_ret].
    + eapply (sim_bind same); [destruct n as [n|]; [apply sim_dtname | now apply sim_ret] | intros d]. eapply sim_bind; [apply sim_lift | intros x; now apply sim_ret].
    + eapply sim_bind; [apply sim_dtname | intros d]. eapply sim_bind; [apply sim_lift | intros x].
      eapply (sim_bind (option_map epat)); [|intros e; apply sim_ret; reflexivity].
      destruct ex as [e|]; [|now apply sim_ret]. eapply sim_bind; [apply sim_pattern | intros e'; now apply sim_ret].
  - intros g c. destruct g; cbn; try (now apply sim_ret).
    + eapply sim_bind; [apply (sim_pattern p (YDefine c name sp)) | intros x]. apply sim_conv. intros a. rewrite <- (rule_e a). apply sim_define.
    + apply sim_iter. induction l as [|x l IH]; constructor; [apply sim_content | exact IH].
    + eapply sim_bind; [apply sim_path | intros f]. apply sim_conv. intros a. eapply sim_bind; [apply sim_map_err, sim_get | intros s].
      eapply sim_bind; [apply sim_include | intros inc]. eapply sim_bind; [apply sim_inherit | intros inc'].
      eapply (sim_bind same).
      { destruct ov as [l|]; [|now apply sim_ret]. apply sim_iter. induction l as [|x l IH]; constructor; [|exact IH].
        apply sim_map_err. apply (sim_override x (YOverrides inc')). }
      intros _. eapply sim_bind; [apply sim_map_err, sim_schema; assumption | intros inc'']. apply sim_overrides.
  - intros i c. destruct i; cbn; try apply sim_panic; try (now apply sim_ret).
    eapply sim_bind; [apply (sim_pattern p (YDefine c name sp)) | intros x]. apply sim_conv. intros a. rewrite <- (rule_e a). apply sim_define.
Qed.
Lemma sim_contents : csim (wcompile_contents O C fs flen rp ri) (lcompile_contents O C fs flen rp' ri').
Proof. intros c l. apply sim_iter, Forall_forall. intros g _. apply sim_content. Qed.
End F.
Lemma sim_nested : forall d, psim (fst (wnested O C fs flen d)) (fst (lnested O C fs flen d)) /\ csim (snd (wnested O C fs flen d)) (snd (lnested O C fs flen d)).
Proof.
  induction d as [|d [HP HI]]; cbn.
  - split; intros c x; apply sim_fuel.
  - destruct (wnested O C fs flen d) as [rp ri], (lnested O C fs flen d) as [rp' ri']. cbn in *. split; [|now apply sim_contents].
    intros c p. now apply sim_pattern.
Qed.

(** ** The check of references: the name in a reference is that of its cell *)
Definition enames (r : fres werror (list nat)) : fres rerror (list nat) :=
  match r with Ok (inl a) => fok a | Ok (inr e) => ferr (eerr e) | Panic p => Panic p | OutOfFuel => OutOfFuel end.
Definition all_e (go : list nat -> wpat -> fres werror (list nat)) : list nat -> list wpat -> fres werror (list nat) :=
  fix all (seen : list nat) (l : list wpat) {struct l} := match l with [] => fok seen | x :: l' => fbind (go seen x) (fun seen' => all seen' l') end.
Definition all_e' (go : list nat -> mpat -> fres rerror (list nat)) : list nat -> list mpat -> fres rerror (list nat) :=
  fix all (seen : list nat) (l : list mpat) {struct l} := match l with [] => fok seen | x :: l' => fbind (go seen x) (fun seen' => all seen' l') end.
Lemma all_sim go go' l : Forall (fun x => forall seen, enames (go seen x) = go' seen (epat x)) l ->
  forall seen, enames (all_e go seen l) = all_e' go' seen (map epat l).
Proof.
  induction 1 as [|x l H _ IH]; intros seen; [reflexivity|]. cbn. rewrite <- H. destruct (go seen x) as [[s|e]|p|]; cbn; auto.
Qed.
(** one step of each *)
Definition wbody cs d (go : list nat -> wpat -> fres werror (list nat)) (seen : list nat) (p : wpat) : fres werror (list nat) :=
  match p with
  | QChoice l | QInterleave l | QGroup l => all_e go seen l
  | QMixed q | QOptional q | QZeroOrMore q | QOneOrMore q | QAttribute _ q | QElement _ q | QList q => go seen q
  | QEmpty | QText | QNotAllowed | QValue _ => fok seen
  | QRef a n r => wcheck_refs cs d seen (QRef a n r)
  | QData _ (Some e) => go seen e
  | QData _ None => fok seen
  end.
Lemma wstep cs d seen p : wcheck_refs cs d seen p = wbody cs d (wcheck_refs cs d) seen p. Proof. destruct d, p; reflexivity. Qed.
Definition mbody cs d (go : list nat -> mpat -> fres rerror (list nat)) (seen : list nat) (p : mpat) : fres rerror (list nat) :=
  match p with
  | MChoice l | MInterleave l | MGroup l => all_e' go seen l
  | MMixed q | MOptional q | MZeroOrMore q | MOneOrMore q | MAttribute _ q | MElement _ q | MList q => go seen q
  | MEmpty | MText | MNotAllowed | MValue _ => fok seen
  | MRef r => check_refs cs d seen (MRef r)
  | MData _ (Some e) => go seen e
  | MData _ None => fok seen
  end.
Lemma mstep cs d seen p : check_refs cs d seen p = mbody cs d (check_refs cs d) seen p. Proof. destruct d, p; reflexivity. Qed.
Section Check.
Variable main : path.
Notation pok := (pok fs).
Lemma check_sim cs : (forall r n rule, nth_error cs r = Some (n, Some rule) -> pok cs (wrule_pattern rule)) ->
  forall d p seen, pok cs p -> enames (wcheck_refs cs d seen p) = check_refs (map ecell cs) d seen (epat p).
Proof.
  intros Hc.
  assert (Ref : forall d a n r seen, pok cs (QRef a n r) ->
    (forall d' rule seen', d = S d' -> nth_error cs r = Some (n, Some rule) -> enames (wcheck_refs cs d' seen' (wrule_pattern rule)) = check_refs (map ecell cs) d' seen' (epat (wrule_pattern rule))) ->
    enames (wcheck_refs cs d seen (QRef a n r)) = check_refs (map ecell cs) d seen (MRef r)).
  { intros d a n r seen H R. destruct (H a n r (or_introl eq_refl)) as [_ [x X]].
    assert (X' : nth r (map ecell cs) ([], None) = ecell (n, x)) by (apply nth_of_error; rewrite nth_error_map; unfold str in *; rewrite X; reflexivity).
    destruct d as [|d]; cbn [wcheck_refs check_refs]; (destruct (in_dec Nat.eq_dec r seen); [reflexivity|]); rewrite (nth_of_error _ _ _ _ X), X'; cbn [snd];
      destruct x as [rule|]; try reflexivity.
    rewrite (R d rule _ eq_refl X), pat_e. reflexivity. }
  assert (Main : forall d, (forall a n r seen, pok cs (QRef a n r) -> enames (wcheck_refs cs d seen (QRef a n r)) = check_refs (map ecell cs) d seen (MRef r)) ->
    forall p seen, pok cs p -> enames (wcheck_refs cs d seen p) = check_refs (map ecell cs) d seen (epat p)).
  { intros d R. fix IH 1. intros p seen H.
    assert (Q : forall l, wrefs p = flat_map wrefs l -> forall x, In x l -> pok cs x) by (intros l E x I a n r J; apply (H a n r); rewrite E; apply in_flat_map; eauto).
    assert (Fl : forall l, Forall (fun x => forall seen, enames (wcheck_refs cs d seen x) = check_refs (map ecell cs) d seen (epat x)) l ->
      enames (all_e (wcheck_refs cs d) seen l) = all_e' (check_refs (map ecell cs) d) seen (map epat l)) by (intros l F; apply all_sim; exact F).
    rewrite wstep. rewrite mstep. destruct p as [l|l|l|p| | | |p|p|p|nc p|nc p|a n r|v|dt ex|p]; cbn [epat]; try reflexivity; try exact (R _ _ _ seen H); try (apply IH; exact H);
      try (apply Fl; clear Fl; specialize (Q l eq_refl); clear H; induction l as [|x l IHl]; constructor; [intros s; apply IH, Q; now left | apply IHl; intros y Iy; apply Q; now right]).
    destruct ex as [e|]; [apply IH; exact H | reflexivity]. }
  induction d as [|d IHd]; apply Main; intros a n r seen H; apply Ref; auto.
  - discriminate.
  - intros d' rule s E X. injection E as <-. apply IHd. eapply Hc; eauto.
Qed.

Lemma sim_bind_post {A A' B B'} (ea : A -> A') (eb : B -> B') m m' (f : A -> WM B) f' st P Q E :
  forget ea (m st) = m' (est st) -> post fs P st (m st) Q E ->
  (forall a st', ok fs st' -> Q a st' -> forget eb (f a st') = f' (ea a) (est st')) -> forget eb (wbind m f st) = cbind m' f' (est st).
Proof.
  intros H K F. unfold wbind, cbind. rewrite <- H. destruct (m st) as [[[a st']|e]|p|]; cbn in *; auto. destruct K as (K1 & _ & K2). auto.
Qed.

Lemma erasure d : externals_are_patterns fs ->
  forget same (wcompile_grammar O C fs flen d main) = lcompile_grammar O C fs flen d main.
Proof.
  intros Ex. destruct (nested_post O C fs flen main Ex d) as [Np Ni]. destruct (sim_nested d) as [Sp Si].
  unfold wcompile_grammar, lcompile_grammar. destruct (wnested O C fs flen d) as [rp ri], (lnested O C fs flen d) as [rp' ri']. cbn [fst snd] in *.
  change empty_cst with (est empty_wst).
  eapply sim_bind_post; [apply sim_get | apply (get_post fs main none _ (fun _ => True)); [apply empty_ok | intros; exact I]|]. intros s st1 K1 (Fs & _).
  eapply sim_bind_post with (P := none) (Q := fun c _ => exists t, c = YRoot main t initial_ns initial_dts) (E := fun _ => True); [apply sim_root | |].
  { unfold wnew_root. eapply post_bind; [eapply post_weak; [apply new_table_post; exact K1 | exact (fun _ _ _ _ H => H) | intros ? []]|]. intros t st2 K2 _ _. apply post_ret; eauto. }
  intros c st2 K2 [t ->].
  eapply sim_bind_post; [apply sim_schema; [intros c p; apply sim_pattern; assumption | apply sim_contents; assumption]| |].
  { apply (schema_post O C fs flen main _ _ (YRoot main t initial_ns initial_dts) s none); auto; try reflexivity; try exact I.
    - intros c p P st. apply pattern_post; auto.
    - intros c l P st H V Pa K W. apply post_iter; [|exact K]. apply Forall_forall. intros x Ix st3 K3. apply content_post; auto. }
  intros c st3 K3 _. rewrite table_e.
  eapply sim_bind_post with (P := none) (Q := fun _ _ => True) (E := fun _ => True); [apply sim_undefined | |].
  { cbn. split; [exact K3|]. split; [apply grows_refl | exact I]. }
  intros u st4 K4 _. destruct u as [n|]; [reflexivity|]. cbn [same].
  eapply sim_bind_post with (P := none) (Q := fun _ _ => True) (E := fun _ => True); [apply sim_get_ref | |].
  { cbn. split; [exact K4|]. split; [apply grows_refl | exact I]. }
  intros r st5 K5 _. destruct r as [r|]; [|reflexivity]. cbn [same]. cbn [cells est].
  assert (N' : exists n x, nth r (wcells st5) ([] : str, @None wrule) = (n, x) /\ nth r (map ecell (wcells st5)) ([] : str, @None drule) = (n, match x with Some y => Some (erule y) | None => None end)).
  { assert (E := cell_e (wcells st5) r []). exists (fst (nth r (wcells st5) ([] : str, @None wrule))), (snd (nth r (wcells st5) ([] : str, @None wrule))).
    split; [apply surjective_pairing | exact E]. }
  destruct N' as (n & x & N & E).
  match goal with |- forget _ ?L = ?R => change (forget same (match nth r (wcells st5) ([] : str, @None wrule) with
      | (_, Some rule) => fbind (wcheck_refs (wcells st5) (S (List.length (wcells st5))) [] (wrule_pattern rule)) (fun _ => fok (r, st5))
      | (_, None) => Panic PUnwrapNone end) =
    match nth r (map ecell (wcells st5)) ([] : str, @None drule) with
      | (_, Some rule) => fbind (check_refs (map ecell (wcells st5)) (S (List.length (map ecell (wcells st5)))) [] (rule_pattern rule)) (fun _ => fok (r, est st5))
      | (_, None) => Panic PUnwrapNone end) end.
  rewrite N, E. destruct x as [rule|]; [|reflexivity].
  assert (X : nth_error (wcells st5) r = Some (n, Some rule)).
  { destruct (nth_error (wcells st5) r) eqn:Q; [f_equal; rewrite <- N; symmetry; eapply nth_of_error; eauto|]. apply nth_error_None in Q. rewrite nth_overflow in N by exact Q. discriminate N. }
  rewrite map_length, <- pat_e, <- check_sim.
  - destruct (wcheck_refs (wcells st5) (S (List.length (wcells st5))) [] (wrule_pattern rule)) as [[sn|e]|p|]; reflexivity.
  - intros r' n' rl E'. exact (proj2 (ok_cells _ _ K5 r' n' rl E')).
  - exact (proj2 (ok_cells _ _ K5 _ _ _ X)).
Qed.
End Check.
End S.

Lemma labels_diagnostic syn e : (exists l, labels syn e = fok l) <-> schema_diagnostic (eerr e) = Ok tt.
Proof.
  induction e; cbn; try (split; [reflexivity | intros _; eexists; reflexivity]).
  - rewrite <- IHe. split; intros [l E].
    + destruct (labels syn e) as [[l'|[]]|p|]; try discriminate E. exists l'. reflexivity.
    + rewrite E. eexists. reflexivity.
  - split; [intros [l E]; discriminate E | discriminate].
  - destruct e; try (split; [reflexivity | intros _; eexists; reflexivity]).
    match goal with x : facet_error |- _ => destruct x end; try (split; [reflexivity | intros _; eexists; reflexivity]).
    split; [intros [l E]; discriminate E | discriminate].
Qed.
