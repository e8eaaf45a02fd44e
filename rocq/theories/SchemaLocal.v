(** * SchemaLocal: the result of compiling a schema depends only on the files listed by [Compiler::loaded]. *)
From Coq Require Import String.
From Verif Require Import Base Datatype Facets Store Lang Compile Syntax SchemaCompile SourceSpec SourceCompile SchemaSpec SchemaVisit SchemaTerm.

Lemma NoDup_app_snoc {A} (l : list A) x : NoDup l -> ~ In x l -> NoDup (l ++ [x]).
Proof.
  induction 1 as [|y l Hy _ IH]; cbn [app]; intros H; [constructor; [intros [] | constructor]|]. constructor.
  - rewrite in_app_iff. intros [K|[K|[]]]; [exact (Hy K) | apply H; left; congruence].
  - apply IH. intros K. apply H. right. exact K.
Qed.
Fixpoint ctx_size (c : ctx) : nat :=
  S (match c with XRoot _ _ _ _ => 0 | XInclude p _ _ _ _ | XOverrides p | XGrammar p _ | XDefine p _ | XElement p | XAttribute p => ctx_size p end).
Section Local.
Variable O : oracles.
Variable C : coracles.
Variables fs fs' : filesys.
Definition listed (st : cst) : Prop := NoDup (loaded st) /\ Forall (fun f => exists s, fs f = inl s) (loaded st).
(** [loc m m']: whenever [m] succeeds, the list of files grows, stays listed, and [m'] does the same if the second file
    system has the same contents for the files listed at the end; [m'] fails if the second file system differs by lacking one
    of the files newly listed *)
Definition loc {A} (m m' : CM A) : Prop := forall st a st', m st = fok (a, st') ->
  incl (loaded st) (loaded st') /\ (listed st -> listed st') /\ ((forall f, In f (loaded st') -> fs' f = fs f) -> m' st = fok (a, st')) /\
  (forall f e, fs' f = inr e -> (forall g, In g (loaded st') -> g <> f -> fs' g = fs g) -> In f (loaded st') -> ~ In f (loaded st) -> forall b st2, m' st <> fok (b, st2)).
Definition quiet {A} (m : CM A) : Prop := forall st a st', m st = fok (a, st') -> loaded st' = loaded st.

Lemma loc_quiet {A} (m : CM A) : quiet m -> loc m m.
Proof. intros Q st a st' E. pose proof (Q _ _ _ E) as H. unfold listed. rewrite H. split; [apply incl_refl|]. split; [tauto|]. split; [intros _; exact E | intros f e _ _ K1 K2; destruct (K2 K1)]. Qed.
Lemma loc_bind {A B} (m m' : CM A) (f f' : A -> CM B) : loc m m' -> (forall a, loc (f a) (f' a)) -> loc (cbind m f) (cbind m' f').
Proof.
  intros Hm Hf st b st' E. unfold cbind in E. destruct (m st) as [[[a st1]|e]|p|] eqn:E1; try discriminate E. cbn in E.
  destruct (Hm _ _ _ E1) as (I1 & L1 & A1 & F1). destruct (Hf a _ _ _ E) as (I2 & L2 & A2 & F2). split; [eapply incl_tran; eassumption|]. split; [tauto|]. split.
  - intros K. unfold cbind. rewrite A1 by (intros g Hg; apply K, I2, Hg). cbn. apply A2, K.
  - intros g e Hg K Hin Hout b' st2 E'. unfold cbind in E'. destruct (in_dec path_eq_dec g (loaded st1)) as [Hi|Hi].
    + destruct (m' st) as [[[a' st1']|e']|p|] eqn:E2; try discriminate E'. refine (F1 g e Hg _ Hi Hout a' st1' eq_refl). intros g' Hg' Hn. apply K; [apply I2, Hg' | exact Hn].
    + rewrite A1 in E' by (intros g' Hg'; apply K; [apply I2, Hg' | congruence]). cbn in E'. revert E'. exact (F2 g e Hg K Hin Hi b' st2).
Qed.
Lemma loc_cmap {A} g (m m' : CM A) : loc m m' -> loc (cmap_err g m) (cmap_err g m').
Proof.
  intros Hm st a st' E. unfold cmap_err in *. destruct (m st) as [[[a1 st1]|e]|p|] eqn:E1; try discriminate E. cbn in E. injection E as <- <-.
  destruct (Hm _ _ _ E1) as (I & L & K & F). split; [exact I|]. split; [exact L|]. split; [intros H; rewrite (K H); reflexivity|].
  intros f e H1 H2 H3 H4 b st2 E'. destruct (m' st) as [[[a' st1']|e']|p|] eqn:E2; try discriminate E'. exact (F f e H1 H2 H3 H4 a' st1' eq_refl).
Qed.
Lemma loc_citer {A} (f f' : A -> CM unit) l : Forall (fun x => loc (f x) (f' x)) l -> loc (citer f l) (citer f' l).
Proof.
  induction 1 as [|x l Hx _ IH]; cbn [citer].
  - apply loc_quiet. intros st a st' E. injection E as _ <-. reflexivity.
  - apply loc_bind; [exact Hx | intros _; exact IH].
Qed.
Lemma q_ret {A} (a : A) : quiet (cret a).
Proof. intros st b st' E. injection E as _ <-. reflexivity. Qed.
Lemma q_err {A} e : quiet (cerr e : CM A).
Proof. intros st b st' E. discriminate E. Qed.
Lemma q_panic {A} p : quiet (cpanic p : CM A).
Proof. intros st b st' E. discriminate E. Qed.
Lemma q_bind {A B} (m : CM A) (f : A -> CM B) : quiet m -> (forall a, quiet (f a)) -> quiet (cbind m f).
Proof.
  intros Hm Hf st b st' E. unfold cbind in E. destruct (m st) as [[[a st1]|e]|p|] eqn:E1; try discriminate E. cbn in E.
  rewrite (Hf _ _ _ _ E). exact (Hm _ _ _ E1).
Qed.
Lemma q_table : quiet new_table. Proof. intros st a st' E. injection E as _ <-. reflexivity. Qed.
Lemma q_ovr : quiet new_ovr. Proof. intros st a st' E. injection E as _ <-. reflexivity. Qed.
Lemma q_get_ovr o id : quiet (get_ovr o id). Proof. intros st a st' E. injection E as _ <-. reflexivity. Qed.
Lemma q_mark o id : quiet (mark_ovr o id). Proof. intros st a st' E. injection E as _ <-. reflexivity. Qed.
Lemma q_insert o id : quiet (insert_ovr o id). Proof. intros st a st' E. injection E as _ <-. reflexivity. Qed.
Lemma q_acquire t id : quiet (acquire_in t id).
Proof. intros st a st' E. unfold acquire_in in E. destruct (assoc id _); injection E as _ <-; reflexivity. Qed.
Lemma q_define_in t id r : quiet (define_in t id r).
Proof.
  intros st a st' E. unfold define_in in E. destruct (assoc id _) as [k|]; [|injection E as _ <-; reflexivity].
  destruct (SchemaCompile.merge _ _ _) as [[x|e]|p|]; try discriminate E. injection E as _ <-. reflexivity.
Qed.
Lemma q_get_ref t id : quiet (get_ref_in t id). Proof. intros st a st' E. injection E as _ <-. reflexivity. Qed.
Lemma q_take r : quiet (take_cell r).
Proof. intros st a st' E. unfold take_cell in E. destruct (nth _ _ _) as [n d]. injection E as _ <-. reflexivity. Qed.
Lemma q_undefined t : quiet (undefined_in t). Proof. intros st a st' E. injection E as _ <-. reflexivity. Qed.
Lemma q_lift {A} (x : fres dt_error A) : quiet (lift_dt x).
Proof. intros st a st' E. unfold lift_dt in E. destruct x as [[y|e]|p|]; try discriminate E. injection E as _ <-. reflexivity. Qed.
Hint Resolve q_ret q_err q_panic q_table q_ovr q_get_ovr q_mark q_insert q_acquire q_define_in q_get_ref q_take q_undefined q_lift : quiet.
Ltac qt := repeat first [ apply q_bind; [|intros] | progress auto with quiet | match goal with |- quiet (match ?x with _ => _ end) => destruct x end | match goal with |- quiet (if ?x then _ else _) => destruct x end ].
Lemma q_check_include c f : quiet (check_include c f).
Proof. induction c; cbn [check_include]; qt. Qed.
Lemma q_recursion c id : quiet (check_ref_recursion c id).
Proof. induction c; cbn [check_ref_recursion]; qt. Qed.
Lemma q_acquire_impl c id : quiet (acquire_ref_impl c id).
Proof. induction c; cbn [acquire_ref_impl]; qt. Qed.
Hint Resolve q_check_include q_recursion q_acquire_impl : quiet.
Lemma q_acquire_ref c id : quiet (acquire_ref c id).
Proof. unfold acquire_ref. qt. Qed.
Hint Resolve q_acquire_ref : quiet.
Lemma q_parent c id : quiet (acquire_parent_ref c id).
Proof. induction c; cbn [acquire_parent_ref]; qt. Qed.
Lemma q_define_n n : forall c id r, ctx_size c <= n -> quiet (define c id r).
Proof.
  induction n as [|n IH]; intros c id r Hn; destruct c as [f t ns d|p f o ns d|p|p t|p i|p|p]; cbn [ctx_size] in Hn; try lia; cbn [define]; try (qt; fail).
  - qt. apply IH; lia.
  - destruct p as [f t ns d|q f o ns d|q|q t|q i|q|q]; try (qt; fail). cbn [ctx_size] in Hn. qt. apply IH; lia.
Qed.
Lemma q_define c id r : quiet (define c id r).
Proof. apply (q_define_n (ctx_size c)). lia. Qed.
Lemma q_nameclass c el n : quiet (compile_nameclass c el n).
Proof.
  induction n as [nm|nm ex IH|ex IH|a IHa b IHb|a IH] using snc_ind'; cbn [compile_nameclass]; unfold namespace_uri_for_prefix; try (qt; fail).
  all: repeat match goal with |- context [match ?x with _ => _ end] => is_var x; destruct x end; qt.
Qed.
Lemma q_dtname c n : quiet (compile_dtname c n).
Proof. destruct n; cbn [compile_dtname]; unfold try_datatype_uri; qt. Qed.
Lemma q_declaration c d : quiet (compile_declaration c d).
Proof. destruct d as [p [|u]|p [|u]|p u]; cbn [compile_declaration]; unfold declare_namespace, declare_datatype; qt. Qed.
Hint Resolve q_define q_nameclass q_dtname q_declaration q_parent : quiet.
Lemma q_declarations l : forall c, quiet (compile_declarations c l).
Proof. induction l as [|d l IH]; intros c; cbn [compile_declarations]; qt. Qed.
Hint Resolve q_declarations : quiet.
Lemma q_new_element c : quiet (new_element c). Proof. unfold new_element; qt. Qed.
Lemma q_new_include c f : quiet (new_include c f). Proof. unfold new_include; qt. Qed.
Lemma q_new_grammar c : quiet (new_grammar c). Proof. unfold new_grammar; qt. Qed.
Lemma q_path c h : quiet (path_from c h). Proof. unfold path_from; qt. Qed.
Lemma q_inherit c i h : quiet (inherit_prefix c i h). Proof. unfold inherit_prefix, declare_namespace; qt. Qed.
Lemma q_overrides c : quiet (check_overrides c).
Proof. unfold check_overrides. destruct c; try apply q_panic. intros st a st' E. destruct (find _ _) as [[n b]|]; [discriminate E | injection E as _ <-; reflexivity]. Qed.
Lemma q_take_start t : quiet (take_start t). Proof. unfold take_start; qt. Qed.
Hint Resolve q_new_element q_new_include q_new_grammar q_path q_inherit q_overrides q_take_start : quiet.
Lemma loc_q {A} (m : CM A) : quiet m -> loc m m.
Proof. apply loc_quiet. Qed.
Lemma loc_get f : loc (get_schema fs f) (get_schema fs' f).
Proof.
  intros st a st' E. unfold get_schema in *. destruct (fs f) as [s|e] eqn:Ef; [|discriminate E]. injection E as <- <-. cbn [loaded listed].
  assert (Hin : In f (if in_dec path_eq_dec f (loaded st) then loaded st else loaded st ++ [f])) by (destruct (in_dec _ _ _); [assumption | apply in_or_app; right; left; reflexivity]).
  split; [|split; [|split]].
  - destruct (in_dec _ _ _); [apply incl_refl | apply incl_appl, incl_refl].
  - unfold listed. cbn [loaded]. destruct (in_dec path_eq_dec f (loaded st)) as [Hi|Hi]; [tauto|]. intros [N F]. split.
    + apply NoDup_app_snoc; assumption.
    + apply Forall_app. split; [exact F | constructor; [exists s; exact Ef | constructor]].
  - intros K. rewrite (K f Hin), Ef. reflexivity.
  - intros g e Hg _ K1 K2 b st2 E'. assert (g = f) as ->.
    { destruct (in_dec path_eq_dec f (loaded st)); [destruct (K2 K1)|]. apply in_app_iff in K1. destruct K1 as [K1|[K1|[]]]; [destruct (K2 K1) | congruence]. }
    rewrite Hg in E'. discriminate E'.
Qed.

Section Rec.
Variables (rp rp' : ctx -> spat -> CM mpat) (ri ri' : ctx -> list gcontent -> CM unit).
Hypothesis Hp : forall c p, loc (rp c p) (rp' c p).
Hypothesis Hi : forall c l, loc (ri c l) (ri' c l).
Notation P1 := (compile_pattern O C fs rp ri).
Notation P2 := (compile_pattern O C fs' rp' ri').
Notation G1 := (compile_content O C fs rp ri).
Notation G2 := (compile_content O C fs' rp' ri').
Notation V1 := (compile_override O C fs rp ri).
Notation V2 := (compile_override O C fs' rp' ri').
Ltac lq := apply loc_q; qt.
Lemma loc_schema c s (cp cp' : ctx -> spat -> CM mpat) (ci ci' : ctx -> list gcontent -> CM unit) :
  (forall c p, loc (cp c p) (cp' c p)) -> (forall c l, loc (ci c l) (ci' c l)) -> loc (compile_schema_with cp ci c s) (compile_schema_with cp' ci' c s).
Proof.
  intros Hcp Hci. unfold compile_schema_with. apply loc_bind; [lq|]. intros c'. destruct (s_top s) as [p|l].
  - destruct (is_include c').
    + destruct p; try lq. apply loc_bind; [apply Hci | intros; lq].
    + apply loc_bind; [apply Hcp | intros; lq].
  - apply loc_bind; [apply Hci | intros; lq].
Qed.
Lemma local : (forall p c, loc (P1 c p) (P2 c p)) /\ (forall g c, loc (G1 c g) (G2 c g)) /\ (forall i c, loc (V1 c i) (V2 c i)).
Proof.
  assert (H_ex : forall h i, forall c, loc (P1 c (SExternal h i)) (P2 c (SExternal h i))).
  { intros h i c. cbn [SchemaCompile.compile_pattern]. destruct i; [lq|]. apply loc_bind; [lq|]. intros f. apply loc_bind; [apply loc_cmap, loc_get|]. intros s.
    apply loc_bind; [lq|]. intros inc. destruct (s_top s); [apply loc_cmap, Hp|]. apply loc_bind; [lq|]. intros. apply loc_bind; [apply Hi|]. intros; lq. }
  assert (H_gr : forall l, Forall (fun g => forall c, loc (G1 c g) (G2 c g)) l -> forall c, loc (P1 c (SGrammar l)) (P2 c (SGrammar l))).
  { intros l Hl c. cbn [SchemaCompile.compile_pattern]. apply loc_bind; [lq|]. intros g. apply loc_bind; [|intros; lq].
    apply loc_citer. eapply Forall_impl; [|exact Hl]. cbn. auto. }
  assert (H_da : forall n ps ex, (match ex with Some e => forall c, loc (P1 c e) (P2 c e) | None => True end) -> forall c, loc (P1 c (SData n ps ex)) (P2 c (SData n ps ex))).
  { intros n ps ex IH c. cbn [SchemaCompile.compile_pattern]. do 2 (apply loc_bind; [lq|]; intros). apply loc_bind; [|intros; lq].
    destruct ex as [e|]; [|lq]. apply loc_bind; [apply IH | intros; lq]. }
  assert (H_gi : forall h i ov, (match ov with Some l => Forall (fun i => forall c, loc (V1 c i) (V2 c i)) l | None => True end) -> forall c, loc (G1 c (GInclude h i ov)) (G2 c (GInclude h i ov))).
  { intros h i ov Hov c. cbn [SchemaCompile.compile_content]. apply loc_bind; [lq|]; intros. apply loc_bind; [apply loc_cmap, loc_get|]; intros. do 2 (apply loc_bind; [lq|]; intros). apply loc_bind.
    - destruct ov as [l|]; [|lq]. apply loc_citer. eapply Forall_impl; [|exact Hov]. cbn. intros x Hx. apply loc_cmap, Hx.
    - intros. apply loc_bind; [apply loc_cmap, loc_schema; assumption | intros; lq]. }
  assert (H_gv : forall l, Forall (fun g => forall c, loc (G1 c g) (G2 c g)) l -> forall c, loc (G1 c (GDiv l)) (G2 c (GDiv l))).
  { intros l Hl c. cbn [SchemaCompile.compile_content]. apply loc_citer. eapply Forall_impl; [|exact Hl]. cbn. auto. }
  assert (H1 : forall p c, loc (P1 c p) (P2 c p)).
  { apply (spat_ind' (fun p => forall c, loc (P1 c p) (P2 c p)) (fun g => forall c, loc (G1 c g) (G2 c g)) (fun i => forall c, loc (V1 c i) (V2 c i))); auto;
    intros; cbn [SchemaCompile.compile_pattern SchemaCompile.compile_content SchemaCompile.compile_override];
    repeat first [match goal with H : forall c, loc _ _ |- _ => apply H end | apply loc_bind; [|intros] | lq; fail | apply loc_quiet; qt; fail]. }
  assert (H3 : forall i c, loc (V1 c i) (V2 c i)).
  { intros [n h p|l|a] c; cbn [SchemaCompile.compile_override]; try lq. apply loc_bind; [apply H1 | intros; lq]. }
  split; [exact H1|]. split; [|exact H3].
  apply (gcontent_ind' (fun p => forall c, loc (P1 c p) (P2 c p)) (fun g => forall c, loc (G1 c g) (G2 c g)) (fun i => forall c, loc (V1 c i) (V2 c i))); auto;
    intros; cbn [SchemaCompile.compile_content]; try lq. apply loc_bind; [apply H1 | intros; lq].
Qed.
Lemma local_contents c l : loc (compile_contents O C fs rp ri c l) (compile_contents O C fs' rp' ri' c l).
Proof. unfold compile_contents. apply loc_citer. apply Forall_forall. intros g _. apply local. Qed.
End Rec.
Lemma nested_local d : (forall c p, loc (fst (nested O C fs d) c p) (fst (nested O C fs' d) c p)) /\ (forall c l, loc (snd (nested O C fs d) c l) (snd (nested O C fs' d) c l)).
Proof.
  induction d as [|d [IH1 IH2]]; [split; intros c x st a st' E; discriminate E|]. cbn [nested].
  destruct (nested O C fs d) as [rp ri], (nested O C fs' d) as [rp' ri']. cbn [fst snd] in *. split; intros; [apply local | apply local_contents]; assumption.
Qed.
Lemma compile_local d name r st : compile_grammar O C fs d name = Ok (inl (r, st)) ->
  In name (loaded st) /\ listed st /\ ((forall f, In f (loaded st) -> fs' f = fs f) -> compile_grammar O C fs' d name = Ok (inl (r, st))) /\
  (forall f e, In f (loaded st) -> fs' f = inr e -> (forall g, In g (loaded st) -> g <> f -> fs' g = fs g) -> forall x, compile_grammar O C fs' d name <> Ok (inl x)).
Proof.
  intros E. unfold compile_grammar in *. destruct (nested_local d) as [H1 H2]. destruct (nested O C fs d) as [rp ri], (nested O C fs' d) as [rp' ri']. cbn [fst snd] in *.
  match type of E with ?m empty_cst = _ => match goal with |- _ /\ _ /\ (_ -> ?m' empty_cst = _) /\ _ => assert (L : loc m m') end end.
  { apply loc_bind; [apply loc_get|]. intros s. apply loc_bind; [apply loc_quiet; unfold new_root; qt|]. intros c. apply loc_bind.
    - apply loc_schema; intros; [apply local | apply local_contents]; assumption.
    - intros c'. apply loc_quiet. qt. intros st1 a st2 E1. destruct (nth _ _ _) as [nn [rule|]]; [|discriminate E1].
      destruct (check_refs _ _ _ _) as [[x|e]|p|]; try discriminate E1. injection E1 as _ <-. reflexivity. }
  destruct (L _ _ _ E) as (_ & L2 & L3 & L4). split; [|split; [apply L2; split; constructor | split; [exact L3 | intros f e H3 H4 H5 [x st2]; exact (L4 f e H4 H5 H3 (fun K => K) x st2)]]].
  unfold cbind at 1 in E. destruct (get_schema fs name empty_cst) as [[[s st1]|e]|p|] eqn:Eg; try discriminate E. cbn [fbind rbind] in E.
  match type of E with ?m st1 = _ => match type of L with loc (cbind _ ?f) (cbind _ ?f') => assert (L' : loc (f s) (f' s)) end end.
  { apply loc_bind; [apply loc_quiet; unfold new_root; qt|]. intros c. apply loc_bind.
    - apply loc_schema; intros; [apply local | apply local_contents]; assumption.
    - intros c'. apply loc_quiet. qt. intros st2 a st3 E1. destruct (nth _ _ _) as [nn [rule|]]; [|discriminate E1].
      destruct (check_refs _ _ _ _) as [[x|e]|p|]; try discriminate E1. injection E1 as _ <-. reflexivity. }
  destruct (L' _ _ _ E) as (I & _). apply I. unfold get_schema in Eg. destruct (fs name); [|discriminate Eg]. injection Eg as _ <-. left. reflexivity.
Qed.
End Local.
