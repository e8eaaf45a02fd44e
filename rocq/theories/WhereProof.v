(** * WhereProof: the positions of a schema error are positions of what it is about. *)
From Coq Require Import String.
From Verif Require Import Base Datatype Facets Store Compile Syntax SchemaCompile FacetAt Located Where WhereSpec.
Open Scope wm_scope.

Fixpoint wrefs (p : wpat) : list (pos * str * nat) :=
  match p with
  | QChoice l | QInterleave l | QGroup l => flat_map wrefs l
  | QMixed p | QOptional p | QZeroOrMore p | QOneOrMore p | QAttribute _ p | QElement _ p | QList p => wrefs p
  | QEmpty | QText | QNotAllowed | QValue _ => []
  | QRef a n r => [(a, n, r)]
  | QData _ ex => match ex with Some e => wrefs e | None => [] end
  end.

Lemma assoc_in {A} k (l : list (str * A)) v : assoc k l = Some v -> In (k, v) l.
Proof.
  induction l as [|[k' v'] l IH]; cbn; [discriminate|]. destruct (str_eqb k' k) eqn:E; intros H.
  - apply str_eqb_eq in E as ->. injection H as ->. now left.
  - right. auto.
Qed.
Lemma nth_upd {A} i j (x d : A) l : nth j (upd i x l) d = if (Nat.eqb i j && (i <? List.length l))%bool then x else nth j l d.
Proof.
  revert i j. induction l as [|y l IH]; intros i j; cbn.
  - rewrite andb_false_r. destruct i, j; reflexivity.
  - destruct i, j; cbn; try reflexivity. rewrite IH. reflexivity.
Qed.
Lemma nth_error_upd {A} i j (x : A) l : nth_error (upd i x l) j = if (Nat.eqb i j && (i <? List.length l))%bool then Some x else nth_error l j.
Proof.
  revert i j. induction l as [|y l IH]; intros i j; cbn.
  - rewrite andb_false_r. destruct i, j; reflexivity.
  - destruct i, j; cbn; try reflexivity. rewrite IH. reflexivity.
Qed.
Lemma upd_length {A} i (x : A) l : List.length (upd i x l) = List.length l.
Proof. revert i. induction l; intros [|i]; cbn; auto. Qed.

Section P.
Variable O : oracles.
Variable C : coracles.
Variable fs : lfilesys.
Variable flen : path -> N.
Variable main : path.
Notation written := (written fs). Notation leads := (leads fs). Notation says := (says O C fs flen main).
Notation definition_in := (definition_in fs). Notation definition_at := (definition_at fs). Notation defined_at := (defined_at fs).
Notation reference_at := (reference_at fs). Notation names_file := (names_file fs). Notation reads := (reads fs).

Lemma written_part f x y : written f x -> In y (parts x) -> written f y.
Proof. intros (s & t & E & I & W) H. exists s, t. repeat split; auto. econstructor; eauto. Qed.
Lemma written_top f s t : fs f = inl s -> In t (tops (ls_top s)) -> written f t.
Proof. intros E I. exists s, t. repeat split; auto. constructor. Qed.

(** ** States *)
Definition names (cs cs' : list (str * option wrule)) : Prop :=
  forall r n x, nth_error cs r = Some (n, x) -> exists x', nth_error cs' r = Some (n, x').
Definition pok (cs : list (str * option wrule)) (p : wpat) : Prop :=
  forall a n r, In (a, n, r) (wrefs p) -> reference_at a n /\ exists x, nth_error cs r = Some (n, x).
Record ok (st : wst) : Prop := Ok_st {
  ok_tables : forall t id r, In (id, r) (nth t (wtables st) []) -> exists x, nth_error (wcells st) r = Some (id, x);
  ok_cells : forall r n rule, nth_error (wcells st) r = Some (n, Some rule) -> defined_at (wrule_at rule) n /\ pok (wcells st) (wrule_pattern rule);
  ok_none : forall r n, nth_error (wcells st) r = Some (n, None) -> (exists a, reference_at a n) \/ n = lit "start" }.
Definition entry := nat -> str -> pos -> Prop.
Definition none : entry := fun _ _ _ => False.
Definition grows (P : entry) (st st' : wst) : Prop :=
  names (wcells st) (wcells st') /\ List.length (wovrs st) <= List.length (wovrs st') /\
  forall o, o < List.length (wovrs st) -> forall n a b, In (n, (a, b)) (nth o (wovrs st') []) ->
    (exists b', In (n, (a, b')) (nth o (wovrs st) [])) \/ P o n a.
Definition post {A} (P : entry) (st0 : wst) (r : fres werror (A * wst)) (Q : A -> wst -> Prop) (E : werror -> Prop) : Prop :=
  match r with
  | Ok (inl (a, st')) => ok st' /\ grows P st0 st' /\ Q a st'
  | Ok (inr e) => E e
  | _ => True
  end.

Lemma names_refl cs : names cs cs. Proof. intros r n x H. eauto. Qed.
Lemma names_trans a b c : names a b -> names b c -> names a c.
Proof. intros H K r n x E. apply H in E as [x' E]. apply K in E. exact E. Qed.
Lemma pok_names cs cs' p : names cs cs' -> pok cs p -> pok cs' p.
Proof. intros N H a n r I. destruct (H a n r I) as [R [x X]]. split; [exact R|]. apply N in X. exact X. Qed.
Lemma grows_refl P st : grows P st st.
Proof. split; [apply names_refl|]. split; [lia|]. intros. left. eauto. Qed.
Lemma grows_trans P Q a b c : grows P a b -> grows Q b c -> (forall o n x, o < List.length (wovrs a) -> Q o n x -> P o n x) -> grows P a c.
Proof.
  intros (N & L & G) (N' & L' & G') W. split; [eapply names_trans; eauto|]. split; [lia|].
  intros o Ho n x y I. destruct (G' o ltac:(lia) n x y I) as [[b' I']|K]; [|right; auto]. exact (G o Ho n x b' I').
Qed.

Lemma post_ret {A} P st (a : A) (Q : A -> wst -> Prop) E : ok st -> Q a st -> post P st (wret a st) Q E.
Proof. intros H K. cbn. split; [exact H|]. split; [apply grows_refl | exact K]. Qed.
Lemma post_bind' {A B} (P P2 : entry) st (m : WM A) (f : A -> WM B) Q1 Q E :
  post P st (m st) Q1 E -> (forall o n x, o < List.length (wovrs st) -> P2 o n x -> P o n x) ->
  (forall a st1, ok st1 -> grows P st st1 -> Q1 a st1 -> post P2 st1 (f a st1) Q E) -> post P st (wbind m f st) Q E.
Proof.
  unfold wbind, post. intros H W F. destruct (m st) as [[[a st1]|e]|p|]; cbn; auto. destruct H as (K & G & Q').
  specialize (F a st1 K G Q'). destruct (f a st1) as [[[b st2]|e]|p|]; auto. destruct F as (K2 & G2 & R). split; [exact K2|]. split; [|exact R].
  eapply grows_trans; eauto.
Qed.
Lemma post_bind {A B} P st (m : WM A) (f : A -> WM B) Q1 Q E :
  post P st (m st) Q1 E -> (forall a st1, ok st1 -> grows P st st1 -> Q1 a st1 -> post P st1 (f a st1) Q E) -> post P st (wbind m f st) Q E.
Proof. intros H F. eapply post_bind'; eauto. Qed.
Lemma post_weak {A} P st (r : fres werror (A * wst)) (Q Q' : A -> wst -> Prop) (E E' : werror -> Prop) :
  post P st r Q E -> (forall a st', ok st' -> grows P st st' -> Q a st' -> Q' a st') -> (forall e, E e -> E' e) -> post P st r Q' E'.
Proof. unfold post. intros H K F. destruct r as [[[a st1]|e]|p|]; auto. destruct H as (X & Y & Z). auto. Qed.
Lemma post_map {A} P st (m : WM A) Q (E E' : werror -> Prop) g : post P st (m st) Q E -> (forall e, E e -> E' (g e)) -> post P st (wmap_err g m st) Q E'.
Proof. unfold wmap_err, post. intros H K. destruct (m st) as [[[a st1]|e]|p|]; cbn; auto. Qed.
Lemma post_iter {A} P (f : A -> WM unit) E l : Forall (fun x => forall st, ok st -> post P st (f x st) (fun _ _ => True) E) l ->
  forall st, ok st -> post P st (witer f l st) (fun _ _ => True) E.
Proof.
  induction 1 as [|x l Hx Hl IH]; intros st H; cbn [witer].
  - apply post_ret; auto.
  - eapply post_bind; [apply Hx; exact H|]. intros a st1 H1 _ _. apply IH; exact H1.
Qed.

(** ** Contexts *)
Definition not_ov (c : wctx) : Prop := match c with YOverrides _ => False | _ => True end.
Fixpoint cok (c : wctx) : Prop :=
  match c with
  | YRoot f _ _ _ => f = main
  | YInclude p g _ _ _ => cok p /\ not_ov p /\ exists sp, names_file (wfile p) sp g
  | YOverrides p => cok p /\ match p with
      | YInclude q g _ _ _ => exists sp h inh l, written (wfile q) (IContent (LInclude sp h inh (Some l))) /\ resolve (wfile q) (lit_value h) = Some g
      | _ => False end
  | YGrammar p _ => cok p /\ not_ov p
  | YDefine p n sp => cok p /\ exists q, definition_in (wfile p) sp n q
  | YElement p | YAttribute p _ => cok p /\ not_ov p
  end.
Lemma cok_file : forall c, cok c -> file_of (ectx c) = Some (wfile c).
Proof.
  fix IH 1. intros c H. unfold wfile. destruct c as [f t ns d|p f o ns d|p|p t|p n sp|p|p a]; cbn in *; try reflexivity.
  - destruct p as [| q g o ns d | | | | |]; cbn in *; try tauto. destruct H as [[H _] _]. rewrite (IH q H). reflexivity.
  - destruct H as [H _]. rewrite (IH p H). reflexivity.
  - destruct H as [H _]. rewrite (IH p H). reflexivity.
  - destruct H as [H _]. rewrite (IH p H). reflexivity.
  - destruct H as [H _]. rewrite (IH p H). reflexivity.
Qed.
Definition att_ok (c : wctx) (f : path) (x : item) : Prop :=
  forall a, wparent_attribute c = Some a -> exists g asp nc q, a = (g, asp) /\ written g (IPat (LAttribute asp nc q)) /\ leads g (IPat q) f x.
Fixpoint def_of (c : wctx) : option (str * span) :=
  match c with YDefine _ n sp => Some (n, sp) | YAttribute p _ => def_of p | _ => None end.
Definition def_ok (c : wctx) (f : path) (x : item) : Prop :=
  forall n sp, def_of c = Some (n, sp) -> exists q, definition_in f sp n q /\ within (IPat q) x.
Lemma att_part c f x y : att_ok c f x -> In y (parts x) -> att_ok c f y.
Proof. intros H I a E. destruct (H a E) as (g & asp & nc & q & E' & W & L). exists g, asp, nc, q. repeat split; auto. econstructor; eauto. Qed.
Lemma def_part c f x y : def_ok c f x -> In y (parts x) -> def_ok c f y.
Proof. intros H I n sp E. destruct (H n sp E) as (q & D & W). exists q. split; auto. econstructor; eauto. Qed.

Lemma post_conv {A} P st c sp (k : pos -> WM A) Q E : cok c -> post P st (k (wfile c, sp) st) Q E -> post P st (wconv flen c sp k st) Q E.
Proof. intros H K. unfold wconv. rewrite (cok_file c H). destruct (in_file flen (wfile c) sp); [exact K | exact I]. Qed.
Lemma post_conv' {A} P st c sp (k : pos -> WM A) Q E : cok c -> ((fst sp <= snd sp <= flen (wfile c))%N -> post P st (k (wfile c, sp) st) Q E) -> post P st (wconv flen c sp k st) Q E.
Proof.
  intros H K. unfold wconv. rewrite (cok_file c H). destruct (in_file flen (wfile c) sp) eqn:F; [|exact I]. apply K.
  unfold in_file in F. apply andb_true_iff in F as [F1 F2]. apply N.leb_le in F1, F2. split; assumption.
Qed.

(** reading a file that is being read *)
Lemma include_chain : forall c at_ this P st, cok c -> ok st ->
  post P st (wcheck_include c at_ this st) (fun _ st' => st' = st)
    (fun e => e = WRecursiveInclude this at_ /\
       (reads this (wfile c) \/ exists g isp h inh l, written g (IContent (LInclude isp h inh (Some l))) /\ resolve g (lit_value h) = Some this /\ reads g (wfile c))).
Proof.
  fix IH 1. intros c at_ this P st H K.
  destruct c as [f t ns d|p f o ns d|p|p t|p n sp|p|p a]; cbn [wcheck_include cok] in *.
  - apply post_ret; auto.
  - destruct (path_eqb this f) eqn:E.
    + unfold path_eqb in E. destruct (path_eq_dec this f) as [->|]; [|discriminate]. cbn. split; [reflexivity|]. left. constructor.
    + destruct H as (H1 & H2 & sp & H3). eapply post_weak; [apply (IH p at_ this P st H1 K) | auto |].
      intros e [E1 E2]. split; [exact E1|]. change (wfile (YInclude p f o ns d)) with f.
      destruct E2 as [R|(g & isp & h & inh & l & W & Rs & R)]; [left | right; exists g, isp, h, inh, l; repeat split; auto]; econstructor; eauto.
  - (* overrides *)
    destruct H as [H1 H2]. destruct p as [| q g o ns d | | | | |]; try tauto. destruct H2 as (sp & h & inh & l & W & Rs).
    cbn [wcheck_include cok] in *. change (wfile (YOverrides (YInclude q g o ns d))) with (wfile q).
    destruct (path_eqb this g) eqn:E.
    + unfold path_eqb in E. destruct (path_eq_dec this g) as [->|]; [|discriminate]. cbn. split; [reflexivity|].
      right. exists (wfile q), sp, h, inh, l. repeat split; auto. constructor.
    + destruct H1 as (H1 & _). apply (IH q at_ this P st H1 K).
  - destruct H as [H _]. apply (IH p at_ this P st H K).
  - destruct H as [H _]. apply (IH p at_ this P st H K).
  - destruct H as [H _]. apply (IH p at_ this P st H K).
  - destruct H as [H _]. apply (IH p at_ this P st H K).
Qed.

Definition empty_ovr (o : nat) (st : wst) : Prop := o < List.length (wovrs st) /\ nth o (wovrs st) [] = [].
Lemma new_include_post c at_ f P st : cok c -> ok st ->
  post P st (wnew_include c at_ f st) (fun inc st' => exists o, inc = YInclude c f o initial_ns initial_dts /\ o = List.length (wovrs st) /\ empty_ovr o st')
    (fun e => e = WRecursiveInclude f at_ /\
       (reads f (wfile c) \/ exists g isp h inh l, written g (IContent (LInclude isp h inh (Some l))) /\ resolve g (lit_value h) = Some f /\ reads g (wfile c))).
Proof.
  intros H K. unfold wnew_include. eapply post_bind; [apply include_chain; auto|].
  intros _ st1 K1 _ ->. cbn. split.
  - destruct K1. constructor; auto.
  - split.
    + split; [apply names_refl|]. cbn. rewrite app_length. cbn. split; [lia|]. intros o Ho n a b I. left. rewrite app_nth1 in I by exact Ho. eauto.
    + eexists. split; [reflexivity|]. split; [reflexivity|]. unfold empty_ovr. cbn. rewrite app_length. cbn. split; [lia|]. rewrite app_nth2, Nat.sub_diag by lia. reflexivity.
Qed.
Lemma new_table_post P st : ok st -> post P st (wnew_table st) (fun t _ => True) (fun _ => False).
Proof.
  intros K. cbn. split; [|split; [|exact I]].
  - destruct K. constructor; auto. intros t id r. cbn. intros E.
    destruct (Nat.lt_ge_cases t (List.length (wtables st))) as [L|L].
    + rewrite app_nth1 in E by exact L. eauto.
    + rewrite app_nth2 in E by exact L. destruct (t - List.length (wtables st)) as [|[|k]]; cbn in E; contradiction.
  - split; [apply names_refl|]. split; [cbn; lia|]. cbn. intros. left. eauto.
Qed.
Lemma new_grammar_post c P st E : ok st -> post P st (wnew_grammar c st) (fun g _ => exists t, g = YGrammar c t) E.
Proof.
  intros K. unfold wnew_grammar. eapply post_bind; [eapply post_weak; [apply new_table_post; exact K | exact (fun _ _ _ _ H => H) | intros ? []]|].
  intros t st1 K1 _ _. apply post_ret; eauto.
Qed.
Lemma get_post f P st (E : werror -> Prop) : ok st -> (forall n, fs f = inr n -> E (WFile n)) ->
  post P st (wget_schema fs f st) (fun s st' => fs f = inl s /\ wovrs st' = wovrs st) E.
Proof.
  intros K H. unfold wget_schema. destruct (fs f) as [s|n] eqn:F; cbn.
  - split; [destruct K; constructor; auto|]. split; [|auto]. split; [apply names_refl|]. cbn. split; [lia|]. intros. left. eauto.
  - auto.
Qed.

(** ** Prefixes *)
Lemma namespace_post c sp p P st : cok c -> ok st -> prefix_at fs (wfile c, sp) p ->
  post P st (wnamespace flen c sp p st) (fun _ _ => True) (says (wfile c)).
Proof.
  intros H K X. unfold wnamespace. destruct (namespace_uri (ectx c) p); [apply post_ret; auto|].
  apply post_conv; [exact H|]. cbn. now constructor.
Qed.
Lemma nameclass_post : forall n c el P st, cok c -> ok st -> written (wfile c) (INc n) ->
  post P st (wcompile_nameclass flen c el n st) (fun _ _ => True) (says (wfile c)).
Proof.
  fix IH 1. intros [nm sp|nm sp ex|ex|a b|a] c el P st H K W; cbn [wcompile_nameclass].
  - destruct nm as [i|p l|u l]; try (apply post_ret; auto; fail).
    eapply post_bind; [apply namespace_post; auto; left; exists l; exact W|]. intros; apply post_ret; auto.
  - eapply post_bind with (Q1 := fun _ _ => True).
    + destruct ex as [e|]; [|apply post_ret; auto].
      eapply post_bind; [apply IH; auto; eapply written_part; [exact W | now left]|]. intros; apply post_ret; auto.
    + intros e' st1 K1 _ _. eapply post_bind with (Q1 := fun _ _ => True); [|intros; apply post_ret; auto].
      destruct nm as [p|u]; [|apply post_ret; auto]. apply namespace_post; auto. right. left. exists ex. exact W.
  - eapply post_bind with (Q1 := fun _ _ => True); [|intros; apply post_ret; auto].
    destruct ex as [e|]; [|apply post_ret; auto].
    eapply post_bind; [apply IH; auto; eapply written_part; [exact W | now left]|]. intros; apply post_ret; auto.
  - eapply post_bind; [apply IH; auto; eapply written_part; [exact W | now left]|]. intros a' st1 K1 _ _.
    eapply post_bind; [apply IH; auto; eapply written_part; [exact W | right; now left]|]. intros; apply post_ret; auto.
  - apply IH; auto. eapply written_part; [exact W | now left].
Qed.

(** ** References *)
Lemma names_app cs l : names cs (cs ++ l).
Proof. intros r n x E. exists x. rewrite nth_error_app1; [exact E|]. apply nth_error_Some. rewrite E. discriminate. Qed.
Lemma names_upd cs r n x y : nth_error cs r = Some (n, x) -> names cs (upd r (n, y) cs).
Proof.
  intros E r' n' x' E'. rewrite nth_error_upd. destruct (Nat.eqb r r') eqn:Q; cbn [andb].
  - apply Nat.eqb_eq in Q as <-. rewrite E in E'. injection E' as <- <-.
    destruct (r <? List.length cs); [eauto|]. rewrite E. eauto.
  - eauto.
Qed.
Lemma acquire_in_post t id P st E a : ok st -> reference_at a id ->
  post P st (wacquire_in t id st) (fun r st' => exists x, nth_error (wcells st') r = Some (id, x)) E.
Proof.
  intros K R. unfold wacquire_in. destruct (assoc id (nth t (wtables st) [])) as [r|] eqn:A.
  - cbn. split; [exact K|]. split; [apply grows_refl|]. apply (ok_tables _ K t). apply assoc_in. exact A.
  - cbn. assert (New : nth_error (wcells st ++ [(id, None)]) (List.length (wcells st)) = Some (id, None)).
    { rewrite nth_error_app2, Nat.sub_diag by lia. reflexivity. }
    split; [|split].
    + constructor; cbn [wcells wtables].
      * intros t' id' r E'. rewrite nth_upd in E'. destruct (Nat.eqb t t' && (t <? List.length (wtables st)))%bool.
        -- apply in_app_or in E' as [A'|[A'|[]]].
           ++ destruct (ok_tables _ K _ _ _ A') as [x X]. apply (names_app _ [(id, None)]) in X. exact X.
           ++ injection A' as <- <-. eauto.
        -- destruct (ok_tables _ K _ _ _ E') as [x X]. apply (names_app _ [(id, None)]) in X. exact X.
      * intros r n rule E'. destruct (Nat.lt_ge_cases r (List.length (wcells st))) as [L|L].
        -- rewrite nth_error_app1 in E' by exact L. destruct (ok_cells _ K _ _ _ E') as [D Pk]. split; [exact D|]. eapply pok_names; [apply names_app | exact Pk].
        -- rewrite nth_error_app2 in E' by exact L. destruct (r - List.length (wcells st)) as [|[|k]]; cbn in E'; discriminate.
      * intros r n E'. destruct (Nat.lt_ge_cases r (List.length (wcells st))) as [L|L].
        -- rewrite nth_error_app1 in E' by exact L. eapply (ok_none _ K); eauto.
        -- rewrite nth_error_app2 in E' by exact L. destruct (r - List.length (wcells st)) as [|[|k]]; cbn in E'; try discriminate.
           injection E' as <-. left. eauto.
    + split; [apply names_app|]. split; [cbn; lia|]. cbn. intros. left. eauto.
    + cbn [wcells]. eauto.
Qed.
Lemma acquire_impl_post id a E : forall c P st, ok st -> reference_at a id ->
  post P st (wacquire_ref_impl c id st) (fun r st' => exists x, nth_error (wcells st') r = Some (id, x)) E.
Proof. induction c; intros P st K R; cbn [wacquire_ref_impl]; eauto using acquire_in_post. Qed.

(** a reference [sp], [id] to be looked up in [c], on behalf of the file [f]: [Bad] is what is said if [c] is inside of the definition *)
Lemma recursion_post sp id : forall c P st, cok c -> ok st ->
  post P st (wcheck_ref_recursion flen c sp id st) (fun _ st' => st' = st)
    (fun e => exists dsp, def_of c = Some (id, dsp) /\ e = WRecursiveReference id (wfile c, sp) (wfile c, dsp) /\ (fst sp <= snd sp <= flen (wfile c))%N).
Proof.
  induction c; intros P st H K; cbn [wcheck_ref_recursion]; try (apply post_ret; auto; fail).
  - destruct (str_eqb id0 id) eqn:E; [|apply post_ret; auto]. apply str_eqb_eq in E as ->.
    apply post_conv'; [exact H|]. intros B. cbn. eexists. split; [reflexivity|]. split; [reflexivity | exact B].
  - destruct H as [H _]. exact (IHc P st H K).
Qed.
Lemma def_of_written : forall c n dsp, cok c -> def_of c = Some (n, dsp) -> exists q, definition_in (wfile c) dsp n q.
Proof.
  induction c; intros n dsp H E; cbn in E; try discriminate.
  - injection E as <- <-. cbn in H. destruct H as [_ H]. exact H.
  - cbn in H. destruct H as [H _]. exact (IHc n dsp H E).
Qed.
Lemma acquire_post c sp id P st : cok c -> ok st -> def_ok c (wfile c) (IPat (LIdent sp id)) -> written (wfile c) (IPat (LIdent sp id)) ->
  post P st (wacquire_ref flen c sp id st) (fun r st' => exists x, nth_error (wcells st') r = Some (id, x)) (says (wfile c)).
Proof.
  intros H K D W. unfold wacquire_ref. eapply post_bind.
  - eapply post_weak; [apply recursion_post; auto | exact (fun _ _ _ _ X => X) |]. intros e (dsp & Df & -> & B).
    destruct (D _ _ Df) as (q & Dq & Wq). econstructor; eauto.
  - intros _ st1 K1 _ _. eapply acquire_impl_post; [exact K1|]. left. exact (W : written (fst (wfile c, sp)) (IPat (LIdent (snd (wfile c, sp)) id))).
Qed.
Lemma parent_post f sp id : written f (IPat (LParent sp id)) -> forall c P st, cok c -> ok st ->
  post P st (wacquire_parent_ref flen c sp id st) (fun r st' => exists x, nth_error (wcells st') r = Some (id, x)) (says f).
Proof.
  intros W. induction c; intros P st H K; cbn [wacquire_parent_ref].
  - apply post_conv'; [exact H|]. intros B. cbn in H. subst file. cbn. econstructor; eauto.
  - destruct H as [H _]; auto.
  - destruct H as [H _]; auto.
  - destruct H as [H _]. unfold wacquire_ref. eapply post_bind.
    + eapply post_weak; [apply recursion_post; auto | exact (fun _ _ _ _ X => X) |]. intros e (dsp & Df & -> & B).
      destruct (def_of_written c id dsp H Df) as [q Dq]. eapply Sy_recursive_parent; eauto.
    + intros _ st1 K1 _ _. apply (acquire_impl_post id (f, sp)); [exact K1|]. right. exact W.
  - destruct H as [H _]; auto.
  - destruct H as [H _]; auto.
  - destruct H as [H _]; auto.
Qed.

(** ** Definitions *)
Lemma refs_append_choice a b p : wappend_choice a b = fok p -> forall x, In x (wrefs p) -> In x (wrefs a) \/ In x (wrefs b).
Proof.
  destruct a; cbn; try discriminate. intros E. injection E as <-. cbn. intros x I.
  destruct b; rewrite flat_map_app in I; apply in_app_or in I as [I|I]; auto; right; cbn in *; rewrite ?app_nil_r in I; auto.
Qed.
Lemma refs_append_interleave a b p : wappend_interleave a b = fok p -> forall x, In x (wrefs p) -> In x (wrefs a) \/ In x (wrefs b).
Proof.
  destruct a; cbn; try discriminate. intros E. injection E as <-. cbn. intros x I.
  destruct b; rewrite flat_map_app in I; apply in_app_or in I as [I|I]; auto; right; cbn in *; rewrite ?app_nil_r in I; auto.
Qed.
Definition mergeable (n : str) (a b : wrule) (r : fres werror wrule) : Prop :=
  match r with
  | Ok (inl m) => wrule_at m = wrule_at a /\ (forall x, In x (wrefs (wrule_pattern m)) -> In x (wrefs (wrule_pattern a)) \/ In x (wrefs (wrule_pattern b)))
  | Ok (inr e) => e = WDuplicateDefinition n (wrule_at a) (wrule_at b) \/ e = WMixesChoiceAndInterleave (wrule_at a) (wrule_at b)
  | _ => True
  end.
Lemma mg_choice n a b r1 (mk : wpat -> wrule) pa pb : wrule_pattern a = pa -> wrule_pattern b = pb -> (forall p, wrule_at (mk p) = wrule_at a /\ wrule_pattern (mk p) = p) ->
  r1 = wappend_choice pa pb -> mergeable n a b (fbind r1 (fun p => fok (mk p))).
Proof.
  intros <- <- M ->. destruct (wappend_choice (wrule_pattern a) (wrule_pattern b)) as [[p|e]|p|] eqn:E; cbn; auto.
  - destruct (M p) as [M1 M2]. rewrite M1, M2. split; auto. apply (refs_append_choice _ _ _ E).
  - exfalso. destruct (wrule_pattern a); discriminate E.
Qed.
Lemma mg_interleave n a b r1 (mk : wpat -> wrule) pa pb : wrule_pattern a = pa -> wrule_pattern b = pb -> (forall p, wrule_at (mk p) = wrule_at a /\ wrule_pattern (mk p) = p) ->
  r1 = wappend_interleave pa pb -> mergeable n a b (fbind r1 (fun p => fok (mk p))).
Proof.
  intros <- <- M ->. destruct (wappend_interleave (wrule_pattern a) (wrule_pattern b)) as [[p|e]|p|] eqn:E; cbn; auto.
  - destruct (M p) as [M1 M2]. rewrite M1, M2. split; auto. apply (refs_append_interleave _ _ _ E).
  - exfalso. destruct (wrule_pattern a); discriminate E.
Qed.
Lemma mg_pair n a b (mk : list wpat -> wrule) (w : list wpat -> wpat) : (forall l, wrefs (w l) = flat_map wrefs l) -> (forall l, wrule_at (mk l) = wrule_at a /\ wrule_pattern (mk l) = w l) ->
  mergeable n a b (fok (mk [wrule_pattern a; wrule_pattern b])).
Proof.
  intros W M. cbn. destruct (M [wrule_pattern a; wrule_pattern b]) as [M1 M2]. rewrite M1, M2, W. split; auto. intros x I. cbn in I. rewrite app_nil_r in I. apply in_app_or in I. exact I.
Qed.
Lemma merge1_ok n a b : mergeable n a b (wmerge1 n a b).
Proof.
  destruct a as [aa ca pa|aa ca pa], b as [ab cb pb|ab cb pb].
  - destruct ca as [[|]|]; cbn; auto.
  - destruct ca as [[|]|], cb; cbn [wmerge1]; try (cbn; auto; fail);
    destruct pa as [l|l|l|p| | | |p|p|p|nc p|nc p|a0 n0 r|v|d ex|p];
    lazymatch goal with
    | |- mergeable ?n ?a ?b (fbind (wappend_choice ?x ?y) (fun p => fok (QAssign ?at_ ?c p))) => apply (mg_choice n a b _ (fun p => QAssign at_ c p) x y); auto
    | |- mergeable ?n ?a ?b (fbind (wappend_interleave ?x ?y) (fun p => fok (QAssign ?at_ ?c p))) => apply (mg_interleave n a b _ (fun p => QAssign at_ c p) x y); auto
    | |- mergeable ?n ?a ?b (fok (QAssign ?at_ ?c (QChoice _))) => apply (mg_pair n a b (fun l => QAssign at_ c (QChoice l)) QChoice); auto
    | |- mergeable ?n ?a ?b (fok (QAssign ?at_ ?c (QInterleave _))) => apply (mg_pair n a b (fun l => QAssign at_ c (QInterleave l)) QInterleave); auto
    end.
  - destruct ca, cb as [[|]|]; cbn [wmerge1]; try (cbn; auto; fail);
    destruct pa as [l|l|l|p| | | |p|p|p|nc p|nc p|a0 n0 r|v|d ex|p];
    lazymatch goal with
    | |- mergeable ?n ?a ?b (fbind (wappend_choice ?x ?y) (fun p => fok (QAssign ?at_ ?c p))) => apply (mg_choice n a b _ (fun p => QAssign at_ c p) x y); auto
    | |- mergeable ?n ?a ?b (fbind (wappend_interleave ?x ?y) (fun p => fok (QAssign ?at_ ?c p))) => apply (mg_interleave n a b _ (fun p => QAssign at_ c p) x y); auto
    | |- mergeable ?n ?a ?b (fok (QAssign ?at_ ?c (QChoice _))) => apply (mg_pair n a b (fun l => QAssign at_ c (QChoice l)) QChoice); auto
    | |- mergeable ?n ?a ?b (fok (QAssign ?at_ ?c (QInterleave _))) => apply (mg_pair n a b (fun l => QAssign at_ c (QInterleave l)) QInterleave); auto
    end.
  - destruct ca, cb; cbn [wmerge1]; try (cbn; auto; fail);
    lazymatch goal with
    | |- mergeable ?n ?a ?b (fbind (wappend_choice ?x ?y) (fun p => fok (QCombine ?at_ ?c p))) => apply (mg_choice n a b _ (fun p => QCombine at_ c p) x y); auto
    | |- mergeable ?n ?a ?b (fbind (wappend_interleave ?x ?y) (fun p => fok (QCombine ?at_ ?c p))) => apply (mg_interleave n a b _ (fun p => QCombine at_ c p) x y); auto
    end.
Qed.

Lemma nth_of_error {A} (l : list A) r d x : nth_error l r = Some x -> nth r l d = x.
Proof. revert r. induction l; intros [|r]; cbn; try discriminate; auto. intros E. injection E as ->. reflexivity. Qed.
Lemma define_in_post t n rule f P st : ok st -> defined_at (wrule_at rule) n -> fst (wrule_at rule) = f -> pok (wcells st) (wrule_pattern rule) ->
  post P st (wdefine_in t n rule st) (fun _ _ => True) (says f).
Proof.
  intros K D F Pk. unfold wdefine_in. destruct (assoc n (nth t (wtables st) [])) as [r|] eqn:A.
  - apply assoc_in in A. destruct (ok_tables _ K _ _ _ A) as [x X]. rewrite (nth_of_error _ _ (n, None) _ X). cbn [snd].
    assert (M : forall rule', wrule_at rule' = wrule_at rule \/ (exists old, x = Some old /\ wrule_at rule' = wrule_at old) ->
        pok (wcells st) (wrule_pattern rule') -> post P st (fok (tt, Wst (upd r (n, Some rule') (wcells st)) (wtables st) (wovrs st) (wloaded st))) (fun _ _ => True) (says f)).
    { intros rule' At Pk'. cbn. assert (N := names_upd (wcells st) r n x (Some rule') X). split; [|split; [|exact I]].
      - constructor; cbn [wcells wtables].
        + intros t' id r' E'. destruct (ok_tables _ K _ _ _ E') as [y Y]. apply N in Y. exact Y.
        + intros r' n' rl E'. rewrite nth_error_upd in E'. destruct (Nat.eqb r r' && (r <? List.length (wcells st)))%bool.
          * injection E' as <- <-. split; [|eapply pok_names; eauto]. destruct At as [-> |(old & -> & ->)]; [exact D|]. exact (proj1 (ok_cells _ K _ _ _ X)).
          * destruct (ok_cells _ K _ _ _ E') as [D' P']. split; [exact D'|]. eapply pok_names; eauto.
        + intros r' n' E'. rewrite nth_error_upd in E'. destruct (Nat.eqb r r' && (r <? List.length (wcells st)))%bool; [discriminate|]. eapply (ok_none _ K); eauto.
      - split; [exact N|]. cbn. split; [lia|]. intros. left. eauto. }
    destruct x as [old|]; cbn [wmerge].
    + assert (G := merge1_ok n old rule). destruct (wmerge1 n old rule) as [[m|e]|p|]; cbn in G; try exact I.
      * cbn [fbind]. destruct G as [G1 G2]. apply (M m); [right; eauto|]. intros a n' r' I'. destruct (G2 _ I') as [I2|I2]; [|exact (Pk _ _ _ I2)].
        exact (proj2 (ok_cells _ K _ _ _ X) _ _ _ I2).
      * cbn. assert (D' := proj1 (ok_cells _ K _ _ _ X)). destruct (wrule_at rule) as [g sp]. cbn in F. subst g.
        destruct G as [-> | ->]; econstructor; eauto.
    + apply (M rule); auto.
  - cbn. split; [|split; [|exact I]].
    + constructor; cbn [wcells wtables].
      * intros t' id' r E'. rewrite nth_upd in E'. destruct (Nat.eqb t t' && (t <? List.length (wtables st)))%bool.
        -- apply in_app_or in E' as [A'|[A'|[]]].
           ++ destruct (ok_tables _ K _ _ _ A') as [x X]. apply (names_app _ [(n, Some rule)]) in X. exact X.
           ++ injection A' as <- <-. exists (Some rule). rewrite nth_error_app2, Nat.sub_diag by lia. reflexivity.
        -- destruct (ok_tables _ K _ _ _ E') as [x X]. apply (names_app _ [(n, Some rule)]) in X. exact X.
      * intros r n' rl E'. destruct (Nat.lt_ge_cases r (List.length (wcells st))) as [L|L].
        -- rewrite nth_error_app1 in E' by exact L. destruct (ok_cells _ K _ _ _ E') as [D' Pk']. split; [exact D'|]. eapply pok_names; [apply names_app | exact Pk'].
        -- rewrite nth_error_app2 in E' by exact L. destruct (r - List.length (wcells st)) as [|[|k]]; cbn in E'; try discriminate.
           injection E' as <- <-. split; [exact D|]. eapply pok_names; [apply names_app | exact Pk].
      * intros r n' E'. destruct (Nat.lt_ge_cases r (List.length (wcells st))) as [L|L].
        -- rewrite nth_error_app1 in E' by exact L. eapply (ok_none _ K); eauto.
        -- rewrite nth_error_app2 in E' by exact L. destruct (r - List.length (wcells st)) as [|[|k]]; cbn in E'; discriminate.
    + split; [apply names_app|]. split; [cbn; lia|]. cbn. intros. left. eauto.
Qed.
Lemma mark_in id n a b l : In (n, (a, b)) (mark id l) -> exists b', In (n, (a, b')) l.
Proof.
  unfold mark. intros I. apply in_map_iff in I as ([n' [a' b']] & E & I). cbn in E. destruct (str_eqb n' id); injection E as <- <- <-; eauto.
Qed.
Lemma define_post n rule f : defined_at (wrule_at rule) n -> fst (wrule_at rule) = f -> forall c P st, cok c -> not_ov c -> ok st -> pok (wcells st) (wrule_pattern rule) ->
  post P st (wdefine c n rule st) (fun _ _ => True) (says f).
Proof.
  intros D F. induction c; intros P st H V K Pk; cbn [wdefine]; try exact I.
  - apply define_in_post; auto.
  - destruct H as (H1 & H2 & _). eapply post_bind with (Q1 := fun _ st' => st' = st).
    + cbn. split; [exact K|]. split; [apply grows_refl | reflexivity].
    + intros b st1 K1 _ ->. destruct b; [|auto]. cbn. split; [destruct K1; constructor; auto|]. split; [|exact I].
      split; [apply names_refl|]. cbn. rewrite upd_length. split; [lia|]. intros o Ho m a y I'. rewrite nth_upd in I'. destruct (Nat.eqb ov o && (ov <? List.length (wovrs st)))%bool eqn:Q; [|left; eauto].
      apply andb_true_iff in Q as [Q _]. apply Nat.eqb_eq in Q as <-. apply mark_in in I'. auto.
  - destruct V.
  - apply define_in_post; auto.
Qed.
(** an override: its position is noted in the table of the include *)
Lemma define_override_post n rule f q g o ns d (P : entry) st : defined_at (wrule_at rule) n -> fst (wrule_at rule) = f ->
  cok (YOverrides (YInclude q g o ns d)) -> ok st -> pok (wcells st) (wrule_pattern rule) -> P o n (wrule_at rule) ->
  post P st (wdefine (YOverrides (YInclude q g o ns d)) n rule st) (fun _ _ => True) (says f).
Proof.
  intros D F H K Pk Po. cbn [wdefine]. cbn [cok] in H. destruct H as [(H1 & H2 & _) _].
  eapply post_bind with (Q1 := fun _ st' => st' = st).
  - cbn. split; [exact K|]. split; [apply grows_refl | reflexivity].
  - intros b st1 K1 _ ->. destruct b; [exact I|]. eapply post_bind with (Q1 := fun _ st' => wcells st' = wcells st).
    + cbn. split; [destruct K1; constructor; auto|]. split; [|reflexivity].
      split; [apply names_refl|]. cbn. rewrite upd_length. split; [lia|]. intros o' Ho m a y I'. rewrite nth_upd in I'. destruct (Nat.eqb o o' && (o <? List.length (wovrs st)))%bool eqn:Q; [|left; eauto].
      apply andb_true_iff in Q as [Q _]. apply Nat.eqb_eq in Q as <-. apply in_app_or in I' as [I'|[I'|[]]]; [left; eauto|]. injection I' as <- <- <-. now right.
    + intros _ st2 K2 _ E. apply define_post; auto. rewrite E. exact Pk.
Qed.

(** ** Datatypes *)
(** [d] is what [n] stands for *)
Definition stands (n : ldtname) (d : dtname) : Prop :=
  match n with LdString => d = DnString | LdToken => d = DnToken | LdC _ _ _ l => exists u, d = DnCName u l | LdNs _ u _ l => d = DnCName (lit_value u) l end.
Lemma dtname_post c n P st : cok c -> ok st -> datatype_in fs (wfile c) n ->
  post P st (wcompile_dtname flen c n st) (fun d _ => stands n d) (says (wfile c)).
Proof.
  intros H K D. destruct n as [| |sp p lsp l|usp u lsp l]; cbn [wcompile_dtname]; try (apply post_ret; cbn; auto; fail).
  eapply post_bind with (Q1 := fun _ _ => True); [|intros; apply post_ret; cbn; eauto].
  destruct (datatype_uri (ectx c) p); [apply post_ret; auto|]. apply post_conv; [exact H|]. cbn. econstructor; eauto.
Qed.
Lemma lift_post {A} c at_ (x : fres dt_error A) P st : cok c -> ok st -> (forall e, x = Ok (inr e) -> datatype_says O C fs (wfile c) e (at_ e)) ->
  post P st (wlift_dt flen c at_ x st) (fun _ _ => True) (says (wfile c)).
Proof.
  intros H K D. unfold wlift_dt. destruct x as [[a|e]|p|]; try exact I.
  - apply (post_ret P st a); auto.
  - specialize (D e eq_refl). destruct (at_ e) as [sp|] eqn:E.
    + apply post_conv; [exact H|]. cbn. apply (Sy_datatype O C fs flen main (wfile c) e (Some sp)). exact D.
    + cbn. apply (Sy_datatype O C fs flen main (wfile c) e None). exact D.
Qed.
Lemma value_says f n v d : written f (IPat (LValue n v)) -> match n with Some n => stands n d | None => d = DnToken end ->
  forall e, Facets.datatype_value d (lit_value v) = Ok (inr e) -> datatype_says O C fs f e (value_span n e).
Proof.
  intros W Hst e E. destruct n as [n|]; [|subst d; discriminate E].
  assert (G : forall u l, d = DnCName u l -> (exists sp, names_library n sp /\ library_span n = sp) -> names_type n (type_span n) l -> datatype_says O C fs f e (value_span (Some n) e)).
  { intros u l -> (sp & Hl & Hs) Ht. cbn [Facets.datatype_value] in E. destruct (str_eqb u []).
    - cbn [relax_value] in E. destruct (is_name l "string"); [discriminate E|]. destruct (is_name l "token"); [discriminate E|]. injection E as <-. cbn [value_span]. eapply Dy_unknown; [left; eauto | exact Ht].
    - destruct (str_eqb u xsd_uri).
      + cbn [xsd_val] in E. unfold xsd_compile_value in E. destruct (is_name l "string"); [discriminate E|]. destruct (is_name l "token"); [discriminate E|]. destruct (is_name l "QName"); [|discriminate E].
        destruct (qname_try (lit_value v)) as [[q|]| |]; try discriminate E. injection E as <-. cbn [value_span]. eapply Dy_invalid; eauto.
      + injection E as <-. cbn [value_span]. eapply Dy_value_library; [exact W|]. rewrite Hs. exact Hl. }
  destruct n as [| |sp p lsp l|usp u lsp l]; cbn [stands] in Hst.
  - subst d. discriminate E.
  - subst d. discriminate E.
  - destruct Hst as [u Hst]. eapply (G u l Hst); [exists sp; split; [left; eauto | reflexivity] | left; eauto].
  - eapply (G _ l Hst); [exists usp; split; [right; eauto | reflexivity] | right; eauto].
Qed.
Lemma values_first ps k : firstn k (param_values (erase_params (Some ps))) = param_values (Some (map snd (firstn k ps))).
Proof. unfold erase_params, param_values. cbn [option_map]. rewrite !firstn_map. reflexivity. Qed.
Lemma data_says f n ps ex d : written f (IPat (LData n ps ex)) -> stands n d ->
  forall e, Facets.datatype_name O C d (param_values (erase_params ps)) = Ok (inr e) -> datatype_says O C fs f e (data_span O C n d ps e).
Proof.
  intros W Hst e E.
  assert (Rel : forall m, relax_name m (param_values (erase_params ps)) = Ok (inr e) -> (forall l, (exists u, m = DnCName u l) \/ (exists u, m = DnNamespaced u l) -> names_type n (type_span n) l) -> datatype_says O C fs f e (data_span O C n d ps e)).
  { intros m Hm Ht. unfold relax_name in Hm. destruct ps as [[|[sp [[an k] v]] ps]|]; cbn in Hm.
    2:{ injection Hm as <-. cbn [data_span hd_error option_map fst]. eapply Dy_param. exact W. }
    all: destruct m as [| |u l|u l]; try discriminate Hm; [destruct (is_name l "string"); [discriminate Hm|]; destruct (is_name l "token"); [discriminate Hm|]|]; injection Hm as <-; cbn [data_span]; eapply Dy_unknown; eauto; right; eauto. }
  assert (G : forall u l, d = DnCName u l -> (forall psp p lsp l', n = LdC psp p lsp l' -> True) -> (forall usp v lsp l', n = LdNs usp v lsp l' -> u = lit_value v) -> (exists psp p lsp, n = LdC psp p lsp l) \/ (exists usp v lsp, n = LdNs usp v lsp l) ->
    names_type n (type_span n) l -> datatype_says O C fs f e (data_span O C n d ps e)).
  { intros u l -> _ Hu Hn Ht. pose proof E as E0. cbn [Facets.datatype_name] in E. destruct (str_eqb u []) eqn:E1.
    - apply (Rel _ E). intros l' [[u' [= <- <-]]|[u' [=]]]. exact Ht.
    - destruct (str_eqb u xsd_uri) eqn:E2.
      + cbn [xsd_name] in E. unfold xsd_compile in E. destruct (find_entry l (facet_table O C)) as [F|]; [|injection E as <-; cbn [data_span]; eapply Dy_unsupported; eauto].
        destruct (F (param_values (erase_params ps))) as [[t|fe]| |]; cbn in E; try discriminate E. injection E as <-.
        assert (B : fe = FConflict \/ fe <> FConflict) by (destruct fe; auto; right; discriminate). destruct B as [->|B]; [cbn [data_span]; eapply Dy_conflict; exact W|].
        destruct (facet_at_first O C _ _ _ E0) as (k & Hk & Hlt & Hok & He).
        destruct ps as [ps|]; [|cbn in Hlt; lia]. assert (Hl : k < List.length ps) by (unfold erase_params, param_values in Hlt; cbn [option_map] in Hlt; rewrite !map_length in Hlt; exact Hlt).
        destruct (nth_error ps k) as [[sp p]|] eqn:En; [|apply nth_error_None in En; lia].
        assert (Es : data_span O C n (DnCName u l) (Some ps) (DFacet fe) = Some sp) by (destruct fe; try (destruct (B eq_refl)); cbn [data_span]; rewrite Hk, En; reflexivity). rewrite Es.
        destruct (nth_error_split _ _ En) as (ps1 & ps2 & -> & Hk1). destruct (Hok k (le_n k)) as [t Hb]. rewrite values_first in Hb, He.
        assert (F1 : @firstn lparam k (@app lparam ps1 (@cons lparam (sp, p) ps2)) = ps1) by (subst k; rewrite firstn_app, Nat.sub_diag, firstn_all; cbn; apply app_nil_r).
        assert (F2 : @firstn lparam (S k) (@app lparam ps1 (@cons lparam (sp, p) ps2)) = @app lparam ps1 (@cons lparam (sp, p) nil)) by (subst k; rewrite firstn_app, firstn_all2 by lia; replace (S (List.length ps1) - List.length ps1) with 1 by lia; reflexivity).
        rewrite F1 in Hb. rewrite F2, map_app in He. eapply Dy_facet; eauto.
      + injection E as <-. destruct Hn as [(psp & p & lsp & ->)|(usp & v & lsp & ->)]; cbn [data_span].
        * eapply Dy_data_prefix. exact W.
        * rewrite (Hu _ _ _ _ eq_refl). eapply Dy_data_library. exact W. }
  destruct n as [| |sp p lsp l|usp u lsp l]; cbn [stands] in Hst.
  - subst d. apply (Rel _ E). intros l [[u [=]]|[u [=]]].
  - subst d. apply (Rel _ E). intros l [[u [=]]|[u [=]]].
  - destruct Hst as [u Hst]. apply (G u l Hst); auto; [intros ? ? ? ? [=] | left; eauto | left; eauto].
  - apply (G _ l Hst); auto; [intros ? ? ? ? [= _ -> _ _]; reflexivity | right; eauto | right; eauto].
Qed.

(** ** Declarations *)
Definition redecl (c c' : wctx) : Prop :=
  match c with
  | YRoot f t _ _ => exists ns d, c' = YRoot f t ns d
  | YInclude p f o _ _ => exists ns d, c' = YInclude p f o ns d
  | _ => c' = c
  end.
Lemma redecl_refl c : redecl c c. Proof. destruct c; cbn; eauto. Qed.
Lemma redecl_trans a b c : redecl a b -> redecl b c -> redecl a c.
Proof. destruct a; cbn; try (intros -> H; exact H); intros (ns' & d & ->) H; exact H. Qed.
Lemma redecl_facts c c' : redecl c c' -> (cok c -> cok c') /\ (not_ov c -> not_ov c') /\ wfile c' = wfile c /\ wparent_attribute c' = wparent_attribute c /\ def_of c' = def_of c /\ wis_include c' = wis_include c /\ wtable_of c' = wtable_of c.
Proof. destruct c; cbn; try (intros ->; cbn; tauto); intros (ns' & d & ->); cbn; tauto. Qed.
Lemma declare_ns_post c p u P st E : ok st -> post P st (wdeclare_namespace c p u st) (fun c' st' => redecl c c') E.
Proof.
  intros K. destruct c; cbn [wdeclare_namespace]; try exact I; apply post_ret; auto; destruct (assoc p ns); cbn; eauto.
Qed.
Lemma declare_dt_post c p u P st (E : werror -> Prop) : ok st -> E (WDatatypePrefixAlreadyDefined p) -> post P st (wdeclare_datatype c p u st) (fun c' st' => redecl c c') E.
Proof.
  intros K H. destruct c; cbn [wdeclare_datatype]; try exact I; destruct (assoc p dts); try exact H; apply post_ret; cbn; eauto.
Qed.
Lemma decls_post f s : fs f = inl s -> forall l, (forall d, In d l -> In d (ls_decls s)) -> forall c P st, ok st ->
  post P st (wcompile_declarations c l st) (fun c' _ => redecl c c') (says f).
Proof.
  intros F. induction l as [|d l IH]; intros Sub c P st K; cbn [wcompile_declarations].
  - apply post_ret; auto using redecl_refl.
  - eapply post_bind with (Q1 := fun c' _ => redecl c c').
    + destruct d as [p [|u]|[p|] [|u]|p u]; cbn [wcompile_declaration]; try exact I.
      * apply declare_ns_post; auto.
      * apply declare_ns_post; auto.
      * apply post_ret; auto using redecl_refl.
      * apply declare_dt_post; auto. econstructor; [exact F|]. apply Sub. now left.
    + intros c1 st1 K1 _ R. eapply post_weak; [apply IH; auto; intros d' I'; apply Sub; now right | | auto].
      intros c2 st2 _ _ R2. eapply redecl_trans; eauto.
Qed.
Lemma inherit_post c q g o ns d sp h inh ov P st : cok c -> ok st -> written (wfile c) (IContent (LInclude sp h inh ov)) ->
  post P st (winherit_prefix flen c (YInclude q g o ns d) inh st) (fun inc _ => redecl (YInclude q g o ns d) inc) (says (wfile c)).
Proof.
  intros H K W. destruct inh as [[isp i]|]; cbn [winherit_prefix].
  - destruct (namespace_uri (ectx c) (ik_string i)); [apply declare_ns_post; exact K|].
    apply post_conv; [exact H|]. cbn. constructor. right. right. exists sp, h, i, ov. split; [reflexivity | exact W].
  - apply post_ret; auto. cbn. eauto.
Qed.

(** ** Start *)
Lemma start_post t (m : WM wpat) P st f : ok st -> (forall st, ok st -> post P st (m st) (fun p st' => pok (wcells st') p) (says f)) ->
  post P st (wtake_start t m st) (fun p st' => pok (wcells st') p) (says f).
Proof.
  intros K M. unfold wtake_start. eapply post_bind with (Q1 := fun r st' => st' = st /\ assoc (lit "start") (nth t (wtables st) []) = r).
  - cbn. split; [exact K|]. split; [apply grows_refl | auto].
  - intros r st1 K1 _ (-> & A). destruct r as [r|]; [|auto].
    apply assoc_in in A. destruct (ok_tables _ K1 _ _ _ A) as [x X].
    eapply post_bind with (Q1 := fun d st' => forall rule, d = Some rule -> pok (wcells st') (wrule_pattern rule)).
    + unfold wtake_cell. rewrite (nth_of_error _ _ _ _ X).
      assert (N := names_upd (wcells st) r (lit "start") x None X). cbn. split; [|split].
      * constructor; cbn [wcells wtables].
        -- intros t' id r' E'. destruct (ok_tables _ K1 _ _ _ E') as [y Y]. apply N in Y. exact Y.
        -- intros r' n' rl E'. rewrite nth_error_upd in E'. destruct (Nat.eqb r r' && (r <? List.length (wcells st)))%bool; [discriminate|].
           destruct (ok_cells _ K1 _ _ _ E') as [D' P']. split; [exact D'|]. eapply pok_names; eauto.
        -- intros r' n' E'. rewrite nth_error_upd in E'. destruct (Nat.eqb r r' && (r <? List.length (wcells st)))%bool.
           ++ injection E' as <-. right. reflexivity.
           ++ eapply (ok_none _ K1); eauto.
      * split; [exact N|]. cbn. split; [lia|]. intros. left. eauto.
      * intros rule ->. cbn [wcells]. eapply pok_names; [exact N|]. exact (proj2 (ok_cells _ K1 _ _ _ X)).
    + intros d st2 K2 _ D. destruct d as [rule|]; [apply post_ret; auto | auto].
Qed.

(** ** Externals *)
Definition item_externals (x : item) : list literal :=
  match x with IPat p => pat_externals p | IContent g => content_externals g | IOver i => override_externals i | INc _ => [] end.
Lemma flat_in {A B} (h : A -> list B) (l : list A) a x : In a l -> In x (h a) -> In x (flat_map h l).
Proof. intros I J. apply in_flat_map. eauto. Qed.
Lemma externals_part x y h : In y (parts x) -> In h (item_externals y) -> In h (item_externals x).
Proof.
  intros I J. destruct x as [p|g|i|n].
  - destruct p as [sp nc p|sp nc p|p|p|sp i|sp i| | | |sp hr inh|sp l|p|p1 p2|p1 p2|p1 p2|p|p|p|n v|n ps ex]; cbn in I |- *; try contradiction;
    try (destruct I as [<-|[<-|[]]]; cbn in J; auto using in_or_app; contradiction);
    try (destruct I as [<-|[]]; exact J).
    + apply in_map_iff in I as (g & <- & I). eapply flat_in; eauto.
    + destruct ex; cbn in I; [|contradiction]. destruct I as [<-|[]]. exact J.
  - destruct g as [sp n how p|l|sp h' inh [l|]|a]; cbn in I |- *; try contradiction.
    + destruct I as [<-|[]]. exact J.
    + apply in_map_iff in I as (g & <- & I). eapply flat_in; eauto.
    + apply in_map_iff in I as (g & <- & I). eapply flat_in; eauto.
  - destruct i as [sp n how p|l|a]; cbn in I |- *; try contradiction.
    + destruct I as [<-|[]]. exact J.
    + apply in_map_iff in I as (g & <- & I). eapply flat_in; eauto.
  - exfalso. destruct n as [nm sp|nm sp ex|ex|a b|a]; cbn in I; try contradiction;
    try (destruct ex; cbn in I; [|contradiction]); destruct I as [<-|I]; try contradiction; try (destruct I as [<-|I]); contradiction.
Qed.
Lemma externals_within x y h : within x y -> In h (item_externals y) -> In h (item_externals x).
Proof. induction 1; auto. intros J. apply IHwithin. eapply externals_part; eauto. Qed.
Lemma written_external f s sp h inh : fs f = inl s -> written f (IPat (LExternal sp h inh)) -> In h (top_externals (ls_top s)).
Proof.
  intros F (s' & t & E & I & W). rewrite F in E. injection E as <-. apply (externals_within _ _ h) in W; [|now left].
  destruct (ls_top s) as [p|l]; cbn in I |- *.
  - destruct I as [<-|[]]. exact W.
  - apply in_map_iff in I as (g & <- & I). eapply flat_in; eauto.
Qed.

(** ** The files *)
Section F.
Variable rp : wctx -> lspat -> WM wpat.
Variable ri : wctx -> list lgcontent -> WM unit.
Hypothesis extok : externals_are_patterns fs.
Definition pat_spec (f : wctx -> lspat -> WM wpat) : Prop := forall c p P st, cok c -> not_ov c -> ok st -> written (wfile c) (IPat p) ->
  att_ok c (wfile c) (IPat p) -> def_ok c (wfile c) (IPat p) -> post P st (f c p st) (fun x st' => pok (wcells st') x) (says (wfile c)).
Definition cont_spec (f : wctx -> list lgcontent -> WM unit) : Prop := forall c l P st, cok c -> not_ov c -> wparent_attribute c = None -> ok st ->
  (forall g, In g l -> written (wfile c) (IContent g)) -> post P st (f c l st) (fun _ _ => True) (says (wfile c)).
Hypothesis Hp : pat_spec rp.
Hypothesis Hi : cont_spec ri.

Lemma schema_post cp ci c s P st : pat_spec cp -> cont_spec ci -> cok c -> not_ov c -> wparent_attribute c = None -> def_of c = None -> ok st -> fs (wfile c) = inl s ->
  post P st (wcompile_schema_with cp ci c s st) (fun c' _ => redecl c c') (says (wfile c)).
Proof.
  intros Cp Ci H V Pa Df K F. unfold wcompile_schema_with. eapply post_bind; [apply (decls_post _ _ F); auto|].
  intros c' st1 K1 _ R. destruct (redecl_facts _ _ R) as (R1 & R2 & R3 & R4 & R5 & R6 & _). rewrite <- R3 in *.
  destruct (ls_top s) as [p|l] eqn:T.
  - assert (W : written (wfile c') (IPat p)) by (apply (written_top _ _ _ F); rewrite T; now left).
    destruct (wis_include c') eqn:Inc.
    + assert (Bad : (forall sp l, p <> LGrammar sp l) -> says (wfile c') (WIncludedFileMustBeGrammar (wfile c', (0, 0)%N))) by (intros B; econstructor; eauto).
      destruct p; try (apply Bad; intros; discriminate).
      eapply post_bind; [apply Ci; auto; try congruence|intros; apply post_ret; auto].
      intros g I. eapply written_part; [exact W|]. cbn. apply in_map. exact I.
    + eapply post_bind; [apply Cp; auto|].
      * intros a E. rewrite R4, Pa in E. discriminate E.
      * intros n sp E. rewrite R5, Df in E. discriminate E.
      * intros x st2 K2 _ X. eapply post_bind; [|intros; apply post_ret; auto].
        apply define_post; auto; cbn [wrule_at wrule_pattern fst]; auto. right. split; [reflexivity|]. split; [reflexivity|]. cbn. eauto.
  - eapply post_bind; [apply Ci; auto; try congruence|intros; apply post_ret; auto].
    intros g I. apply (written_top _ _ _ F). rewrite T. cbn. apply in_map. exact I.
Qed.

Lemma pok_nil cs p : wrefs p = [] -> pok cs p. Proof. intros E a n r I. rewrite E in I. destruct I. Qed.
Lemma pok_list cs w l : (wrefs w = flat_map wrefs l) -> (forall x, In x l -> pok cs x) -> pok cs w.
Proof. intros E H a n r I. rewrite E in I. apply in_flat_map in I as (x & I & J). exact (H x I a n r J). Qed.
Lemma pok_members cs p l (w : list wpat -> wpat) : (forall l, wrefs (w l) = flat_map wrefs l) -> (l = [p] \/ p = w l) -> pok cs p -> forall x, In x l -> pok cs x.
Proof.
  intros E D H x I. destruct D as [-> | ->].
  - destruct I as [<-|[]]. exact H.
  - intros a n r J. apply H. rewrite E. apply in_flat_map. eauto.
Qed.
Lemma seq_or p : wseq_members p = [p] \/ p = QGroup (wseq_members p). Proof. destruct p; cbn; auto. Qed.
Lemma inter_or p : winter_members p = [p] \/ p = QInterleave (winter_members p). Proof. destruct p; cbn; auto. Qed.
Lemma choice_or p : wchoice_members p = [p] \/ p = QChoice (wchoice_members p). Proof. destruct p; cbn; auto. Qed.

Ltac wpart W := eapply written_part; [exact W | cbn; auto].
Ltac one IH W A D := eapply post_bind; [apply IH; auto; [wpart W | eapply att_part; [exact A | cbn; auto] | eapply def_part; [exact D | cbn; auto]] | intros ? ? ? ? ?; apply post_ret; auto].

Lemma pattern_post : forall p c P st, cok c -> not_ov c -> ok st -> written (wfile c) (IPat p) -> att_ok c (wfile c) (IPat p) -> def_ok c (wfile c) (IPat p) ->
  post P st (wcompile_pattern O C fs flen rp ri c p st) (fun x st' => pok (wcells st') x) (says (wfile c))
with content_post : forall g c P st, cok c -> not_ov c -> wparent_attribute c = None -> ok st -> written (wfile c) (IContent g) ->
  post P st (wcompile_content O C fs flen rp ri c g st) (fun _ _ => True) (says (wfile c))
with override_post : forall i q g o ns d (P : entry) st, let c := YOverrides (YInclude q g o ns d) in cok c -> wparent_attribute c = None -> ok st -> written (wfile c) (IOver i) ->
  (forall sp n how p, i = LIDefine sp n how p -> P o n (wfile c, sp)) ->
  post P st (wcompile_override O C fs flen rp ri c i st) (fun _ _ => True) (says (wfile c)).
Proof.
  - intros p c P st H V K W A D. destruct p as [sp nc p|sp nc p|p|p|sp i|sp i| | | |sp href inh|sp l|p|p1 p2|p1 p2|p1 p2|p|p|p|n v|n ps ex]; cbn [wcompile_pattern].
    + (* element *)
      eapply post_bind; [apply nameclass_post; auto; wpart W|]. intros n st1 K1 _ _.
      eapply post_bind with (Q1 := fun c' _ => c' = YElement c /\ wparent_attribute c = None).
      * apply post_conv; [exact H|]. unfold wnew_element. destruct (wparent_attribute c) as [a|] eqn:E.
        -- destruct (A a E) as (g & asp & anc & q & -> & Wa & L). cbn. econstructor; eauto.
        -- apply post_ret; auto.
      * intros c' st2 K2 _ (-> & Pa). eapply post_bind; [apply (pattern_post p (YElement c) P st2)|].
        -- cbn. auto.
        -- exact I.
        -- exact K2.
        -- wpart W.
        -- intros a E. cbn in E. congruence.
        -- intros m dsp E. discriminate E.
        -- intros x st3 K3 _ X. apply post_ret; auto.
    + (* attribute *)
      eapply post_bind; [apply nameclass_post; auto; wpart W|]. intros n st1 K1 _ _.
      eapply post_bind with (Q1 := fun c' _ => c' = YAttribute c (wfile c, sp)).
      * apply post_conv; [exact H|]. apply post_ret; auto.
      * intros c' st2 K2 _ ->. eapply post_bind; [apply (pattern_post p (YAttribute c (wfile c, sp)) P st2)|].
        -- cbn. auto.
        -- exact I.
        -- exact K2.
        -- wpart W.
        -- intros a E. cbn in E. injection E as <-. exists (wfile c), sp, nc, p. split; [reflexivity|]. split; [exact W | constructor].
        -- intros m dsp E. cbn in E. destruct (D m dsp E) as (q & Dq & Wq). exists q. split; [exact Dq|]. eapply In_part; [exact Wq|]. cbn. auto.
        -- intros x st3 K3 _ X. apply post_ret; auto.
    + one pattern_post W A D.
    + one pattern_post W A D.
    + (* reference *)
      apply post_conv; [exact H|]. eapply post_bind; [apply acquire_post; auto|].
      intros r st1 K1 _ [x X]. apply post_ret; auto. intros a n r' I. destruct I as [I|[]]. injection I as <- <- <-. split; [|eauto]. left. exact W.
    + (* parent *)
      apply post_conv; [exact H|]. eapply post_bind; [apply (parent_post _ _ _ W); auto|].
      intros r st1 K1 _ [x X]. apply post_ret; auto. intros a n r' I. destruct I as [I|[]]. injection I as <- <- <-. split; [|eauto]. right. exact W.
    + apply post_ret; auto. now apply pok_nil.
    + apply post_ret; auto. now apply pok_nil.
    + apply post_ret; auto. now apply pok_nil.
    + (* external *)
      destruct inh; [exact I|]. eapply post_bind with (Q1 := fun f' st' => resolve (wfile c) (lit_value href) = Some f').
      * unfold wpath_from. rewrite (cok_file c H). destruct (resolve (wfile c) (lit_value href)); [apply post_ret; auto | exact I].
      * intros f' st1 K1 _ Rs. assert (Nm : names_file (wfile c) sp f') by (exists href; auto).
        apply post_conv; [exact H|]. eapply post_bind.
        -- eapply post_map; [apply (get_post f' _ _ (says f')); auto; intros; now constructor|]. intros e He. econstructor; eauto.
        -- intros s st2 K2 _ (Fs & _). eapply post_bind.
           ++ eapply post_weak; [apply new_include_post; auto | exact (fun _ _ _ _ X => X) |]. intros e (-> & R). econstructor; eauto.
           ++ intros inc st3 K3 _ (o & -> & _). destruct (W) as (s0 & t0 & F0 & _). 
              destruct (extok _ _ href f' s F0 (written_external _ _ _ _ _ F0 W) Rs Fs) as [q T]. rewrite T.
              assert (Wq : written f' (IPat q)) by (apply (written_top _ _ _ Fs); rewrite T; now left).
              eapply post_map; [apply (Hp (YInclude c f' o initial_ns initial_dts) q P st3)|].
              ** cbn. eauto.
              ** exact I.
              ** exact K3.
              ** exact Wq.
              ** intros a E. cbn in E. destruct (A a E) as (g & asp & anc & aq & -> & Wa & L). exists g, asp, anc, aq. repeat split; auto. eapply Ld_external; eauto.
              ** intros m dsp E. discriminate E.
              ** intros e He. econstructor; eauto.
    + (* grammar *)
      eapply post_bind; [apply new_grammar_post; exact K|]. intros g st1 K1 _ [t ->].
      eapply post_bind.
      * apply post_iter; [|exact K1]. clear K1 st1 A D.
        assert (Wl : forall x, In x l -> written (wfile c) (IContent x)) by (intros y Iy; eapply written_part; [exact W | cbn [parts]; apply in_map; exact Iy]). clear W.
        induction l as [|x l IHl]; constructor.
        -- intros st1 K1. apply (content_post x (YGrammar c t) P st1); [split; auto | exact I | reflexivity | exact K1 |]. apply Wl. now left.
        -- apply IHl. intros y Iy. apply Wl. now right.
      * intros _ st2 K2 _ _. apply (start_post _ _ _ _ (wfile c)); [exact K2|]. intros st3 K3. apply post_conv; [exact H|]. cbn. econstructor; eauto.
    + apply pattern_post; auto; [wpart W | eapply att_part; [exact A | cbn; auto] | eapply def_part; [exact D | cbn; auto]].
    + (* group *)
      eapply post_bind; [apply pattern_post; auto; [wpart W | eapply att_part; [exact A | cbn; auto] | eapply def_part; [exact D | cbn; auto]]|]. intros x st1 K1 _ X.
      eapply post_bind; [apply pattern_post; auto; [wpart W | eapply att_part; [exact A | cbn; auto] | eapply def_part; [exact D | cbn; auto]]|]. intros y st2 K2 (N & _) Y.
      apply post_ret; auto. eapply pok_list; [reflexivity|]. intros z I. apply in_app_or in I as [I|I].
      * exact (pok_members _ x _ QGroup (fun _ => eq_refl) (seq_or x) (pok_names _ _ _ N X) z I).
      * exact (pok_members _ y _ QGroup (fun _ => eq_refl) (seq_or y) Y z I).
    + eapply post_bind; [apply pattern_post; auto; [wpart W | eapply att_part; [exact A | cbn; auto] | eapply def_part; [exact D | cbn; auto]]|]. intros x st1 K1 _ X.
      eapply post_bind; [apply pattern_post; auto; [wpart W | eapply att_part; [exact A | cbn; auto] | eapply def_part; [exact D | cbn; auto]]|]. intros y st2 K2 (N & _) Y.
      apply post_ret; auto. eapply pok_list; [reflexivity|]. intros z I. apply in_app_or in I as [I|I].
      * exact (pok_members _ x _ QInterleave (fun _ => eq_refl) (inter_or x) (pok_names _ _ _ N X) z I).
      * exact (pok_members _ y _ QInterleave (fun _ => eq_refl) (inter_or y) Y z I).
    + eapply post_bind; [apply pattern_post; auto; [wpart W | eapply att_part; [exact A | cbn; auto] | eapply def_part; [exact D | cbn; auto]]|]. intros x st1 K1 _ X.
      eapply post_bind; [apply pattern_post; auto; [wpart W | eapply att_part; [exact A | cbn; auto] | eapply def_part; [exact D | cbn; auto]]|]. intros y st2 K2 (N & _) Y.
      apply post_ret; auto. eapply pok_list; [reflexivity|]. intros z I. apply in_app_or in I as [I|I].
      * exact (pok_members _ x _ QChoice (fun _ => eq_refl) (choice_or x) (pok_names _ _ _ N X) z I).
      * exact (pok_members _ y _ QChoice (fun _ => eq_refl) (choice_or y) Y z I).
    + one pattern_post W A D.
    + one pattern_post W A D.
    + one pattern_post W A D.
    + (* value *)
      eapply post_bind with (Q1 := fun d _ => match n with Some n => stands n d | None => d = DnToken end).
      * destruct n as [n|]; [apply dtname_post; auto; left; eauto | apply post_ret; auto].
      * intros d st1 K1 _ Sd. eapply post_bind; [eapply lift_post; eauto using value_says|]. intros x st2 K2 _ _. apply post_ret; auto. now apply pok_nil.
    + (* data *)
      eapply post_bind; [apply dtname_post; auto; right; eauto|]. intros d st1 K1 _ Sd.
      eapply post_bind; [eapply lift_post; eauto using data_says|]. intros x st2 K2 _ _.
      eapply post_bind with (Q1 := fun e st' => forall q, e = Some q -> pok (wcells st') q).
      * destruct ex as [e|]; [|apply post_ret; auto; intros; discriminate].
        eapply post_bind; [apply pattern_post; auto; [wpart W | eapply att_part; [exact A | cbn; auto] | eapply def_part; [exact D | cbn; auto]]|].
        intros y st3 K3 _ Y. apply post_ret; auto. intros q E. injection E as <-. exact Y.
      * intros e st3 K3 _ Y. apply post_ret; auto. destruct e as [e|]; [exact (Y e eq_refl) | now apply pok_nil].
  - intros g c P st H V Pa K W. destruct g as [sp n how p|l|sp href inh ov|a]; cbn [wcompile_content].
    + (* definition *)
      assert (Df : definition_in (wfile c) sp n p) by (exists how; left; exact W).
      eapply post_bind; [apply (pattern_post p (YDefine c n sp))|].
      * cbn. eauto.
      * exact I.
      * exact K.
      * change (wfile (YDefine c n sp)) with (wfile c). wpart W.
      * intros a E. cbn in E. congruence.
      * intros m dsp E. cbn in E. injection E as <- <-. exists p. split; [exact Df | constructor].
      * intros x st1 K1 _ X. apply post_conv; [exact H|].
        apply define_post; auto; destruct how; cbn; auto; try (left; exists p; exact Df);
        (eapply pok_list; [reflexivity|]; intros y [<-|[]]; exact X).
    + apply post_iter; [|exact K].
      assert (Wl : forall x, In x l -> written (wfile c) (IContent x)) by (intros y Iy; eapply written_part; [exact W | cbn [parts]; apply in_map; exact Iy]). clear W K.
      induction l as [|x l IHl]; constructor.
      * intros st1 K1. apply content_post; auto. apply Wl. now left.
      * apply IHl. intros y Iy. apply Wl. now right.
    + (* include *)
      eapply post_bind with (Q1 := fun f' st' => resolve (wfile c) (lit_value href) = Some f').
      * unfold wpath_from. rewrite (cok_file c H). destruct (resolve (wfile c) (lit_value href)); [apply post_ret; auto | exact I].
      * intros f' st1 K1 _ Rs. assert (Nm : names_file (wfile c) sp f') by (exists href; eauto).
        apply post_conv; [exact H|]. eapply post_bind.
        -- eapply post_map; [apply (get_post f' _ _ (says f')); auto; intros; now constructor|]. intros e He. econstructor; eauto.
        -- intros s st2 K2 _ (Fs & _).
           set (P1 := (fun o n a => o = List.length (wovrs st2) /\ exists l osp how q, ov = Some l /\ In (LIDefine osp n how q) l /\ a = (wfile c, osp)) : entry).
           eapply post_bind' with (P2 := P1).
           ++ eapply post_weak; [apply new_include_post; auto | exact (fun _ _ _ _ X => X) |]. intros e (-> & R). econstructor; eauto.
           ++ intros o n a Ho (-> & _). lia.
           ++ intros inc st3 K3 _ (o & -> & Eo & Emp).
              eapply post_bind; [eapply inherit_post; eauto|]. intros inc st4 K4 G4 R. cbn in R. destruct R as (ns' & d' & ->).
              assert (Hinc : cok (YInclude c f' o ns' d')) by (cbn; eauto).
              eapply post_bind with (Q1 := fun _ _ => True).
              ** destruct ov as [l|]; [|apply post_ret; auto]. apply post_iter; [|exact K4].
                 assert (Wl : forall x, In x l -> written (wfile c) (IOver x)) by (intros y Iy; eapply written_part; [exact W | cbn [parts]; apply in_map; exact Iy]).
                 assert (Hov : cok (YOverrides (YInclude c f' o ns' d'))) by (split; [exact Hinc | exists sp, href, inh, l; split; [exact W | exact Rs]]).
                 assert (Ext : forall e, says (wfile c) e -> says (wfile c) (WInclude (wfile c, sp) e)) by (intros e He; eapply Sy_override; eauto).
                 assert (Sub : forall x, In x l -> forall osp n how q, x = LIDefine osp n how q -> P1 o n (wfile c, osp)) by (intros x Ix osp n how q ->; split; [exact Eo | exists l, osp, how, q; auto]).
                 clearbody P1. clear W.
                 induction l as [|x l IHl]; constructor.
                 --- intros st5 K5. eapply post_map; [|exact Ext]. apply (override_post x c f' o ns' d' P1 st5); [exact Hov | exact Pa | exact K5 | |].
                     +++ exact (Wl x (or_introl eq_refl)).
                     +++ exact (Sub x (or_introl eq_refl)).
                 --- apply IHl; intros y Iy; [apply Wl | apply Sub]; now right.
              ** intros _ st5 K5 G5 _. eapply post_bind.
                 --- eapply post_map; [apply (schema_post rp ri (YInclude c f' o ns' d') s); auto; exact I|]. intros e He. econstructor; eauto.
                 --- intros inc st6 K6 G6 R. cbn in R. destruct R as (ns2 & d2 & ->). cbn [wcheck_overrides].
                     destruct (find (fun x => negb (snd (snd x))) (nth o (wovrs st6) [])) as [[n [a b]]|] eqn:Fi; [|apply (post_ret P1 st6 tt); auto].
                     apply find_some in Fi as [Fi _]. cbn.
                     assert (G : grows P1 st3 st6) by (eapply grows_trans; [eapply grows_trans; [exact G4 | exact G5 | auto] | exact G6 | auto]).
                     destruct Emp as [Lo Em]. destruct G as (_ & _ & G). destruct (G o Lo n a b Fi) as [[b' I']|(_ & l & osp & how & q & -> & I' & ->)].
                     +++ rewrite Em in I'. destruct I'.
                     +++ eapply Sy_override_missing; eauto.
    + apply post_ret; auto.
  - intros i q g o ns d P st c H Pa K W Po. destruct i as [sp n how p|l|a]; cbn [wcompile_override].
    + assert (Df : definition_in (wfile c) sp n p) by (exists how; right; exact W).
      eapply post_bind; [apply (pattern_post p (YDefine c n sp))|].
      * cbn [cok]. split; [exact H|]. exists p. exact Df.
      * exact I.
      * exact K.
      * change (wfile (YDefine c n sp)) with (wfile c). wpart W.
      * intros a E. change (wparent_attribute c = Some a) in E. congruence.
      * intros m dsp E. cbn in E. injection E as <- <-. exists p. split; [exact Df | constructor].
      * intros x st1 K1 _ X. apply post_conv; [exact H|].
        apply define_override_post; auto; try (destruct how; reflexivity).
        -- left. exists p. destruct how; exact Df.
        -- destruct how; cbn; auto; (eapply pok_list; [reflexivity|]; intros y [<-|[]]; exact X).
        -- destruct how; cbn; eauto.
    + exact I.
    + apply post_ret; auto.
Qed.
End F.

Lemma nested_post (extok : externals_are_patterns fs) : forall d, pat_spec (fst (wnested O C fs flen d)) /\ cont_spec (snd (wnested O C fs flen d)).
Proof.
  induction d as [|d [IHp IHi]]; cbn [wnested].
  - split; intros ? ? ? ?; intros; exact I.
  - destruct (wnested O C fs flen d) as [rp ri]. cbn [fst snd] in *. split.
    + intros c p P st. apply pattern_post; auto.
    + intros c l P st H V Pa K W. apply post_iter; [|exact K]. apply Forall_forall. intros x Ix st1 K1. apply content_post; auto.
Qed.

Definition undefined_said (r : fres werror (list nat)) : Prop :=
  match r with Ok (inr e) => exists a n, e = WUndefinedReference n a /\ reference_at a n | _ => True end.
Lemma undefined_bind r k : undefined_said r -> (forall s, undefined_said (k s)) -> undefined_said (fbind r k).
Proof. intros H F. destruct r as [[s|e]|p|]; cbn in *; auto. Qed.
Lemma pok_cons cs w x l : wrefs w = flat_map wrefs (x :: l) -> pok cs w -> pok cs x /\ (forall w', wrefs w' = flat_map wrefs l -> pok cs w').
Proof.
  intros E H. split; [|intros w' E']; intros a n r I; apply H; rewrite E; cbn; apply in_or_app; [now left | right; now rewrite E' in I].
Qed.
Lemma check_said cs : (forall r n rule, nth_error cs r = Some (n, Some rule) -> pok cs (wrule_pattern rule)) ->
  forall d p seen, pok cs p -> undefined_said (wcheck_refs cs d seen p).
Proof.
  intros Hc. induction d as [|d IHd].
  - fix IH 1. intros p seen H.
    assert (All : forall l w, (fix onl (l : list wpat) : Prop := match l with [] => True | x :: l' => (forall seen, pok cs x -> undefined_said (wcheck_refs cs 0 seen x)) /\ onl l' end) l ->
       wrefs w = flat_map wrefs l -> pok cs w -> forall seen, undefined_said ((fix all (seen : list nat) (l : list wpat) {struct l} : fres werror (list nat) :=
           match l with [] => fok seen | x :: l' => fbind (wcheck_refs cs 0 seen x) (fun seen' => all seen' l') end) seen l)).
    { induction l as [|x l IHl]; intros w F E Hw s; [exact I|]. destruct F as [F1 F2]. destruct (pok_cons _ _ _ _ E Hw) as [H1 H2].
      apply undefined_bind; [auto|]. intros s'. apply (IHl (QGroup l) F2 eq_refl). apply H2. reflexivity. }
    destruct p as [l|l|l|p| | | |p|p|p|nc p|nc p|a n r|v|dt ex|p]; cbn [wcheck_refs]; try exact I; try (apply IH; exact H).
    + apply (All l (QChoice l)); auto. clear All H. induction l as [|x l IHl]; [exact I|]. split; [intros; apply IH; auto | exact IHl].
    + apply (All l (QInterleave l)); auto. clear All H. induction l as [|x l IHl]; [exact I|]. split; [intros; apply IH; auto | exact IHl].
    + apply (All l (QGroup l)); auto. clear All H. induction l as [|x l IHl]; [exact I|]. split; [intros; apply IH; auto | exact IHl].
    + destruct (in_dec Nat.eq_dec r seen); [exact I|]. destruct (H a n r (or_introl eq_refl)) as [R [x X]].
      rewrite (nth_of_error _ _ _ _ X). cbn [snd]. destruct x; [exact I|]. cbn. eauto.
    + destruct ex; [apply IH; exact H | exact I].
  - fix IH 1. intros p seen H.
    assert (All : forall l w, (fix onl (l : list wpat) : Prop := match l with [] => True | x :: l' => (forall seen, pok cs x -> undefined_said (wcheck_refs cs (S d) seen x)) /\ onl l' end) l ->
       wrefs w = flat_map wrefs l -> pok cs w -> forall seen, undefined_said ((fix all (seen : list nat) (l : list wpat) {struct l} : fres werror (list nat) :=
           match l with [] => fok seen | x :: l' => fbind (wcheck_refs cs (S d) seen x) (fun seen' => all seen' l') end) seen l)).
    { induction l as [|x l IHl]; intros w F E Hw s; [exact I|]. destruct F as [F1 F2]. destruct (pok_cons _ _ _ _ E Hw) as [H1 H2].
      apply undefined_bind; [auto|]. intros s'. apply (IHl (QGroup l) F2 eq_refl). apply H2. reflexivity. }
    destruct p as [l|l|l|p| | | |p|p|p|nc p|nc p|a n r|v|dt ex|p]; cbn [wcheck_refs]; try exact I; try (apply IH; exact H).
    + apply (All l (QChoice l)); auto. clear All H. induction l as [|x l IHl]; [exact I|]. split; [intros; apply IH; auto | exact IHl].
    + apply (All l (QInterleave l)); auto. clear All H. induction l as [|x l IHl]; [exact I|]. split; [intros; apply IH; auto | exact IHl].
    + apply (All l (QGroup l)); auto. clear All H. induction l as [|x l IHl]; [exact I|]. split; [intros; apply IH; auto | exact IHl].
    + destruct (in_dec Nat.eq_dec r seen); [exact I|]. destruct (H a n r (or_introl eq_refl)) as [R [x X]].
      rewrite (nth_of_error _ _ _ _ X). cbn [snd]. destruct x as [rule|]; [|cbn; eauto]. apply IHd. eapply Hc; eauto.
    + destruct ex; [apply IH; exact H | exact I].
Qed.

Lemma empty_ok : ok empty_wst.
Proof.
  constructor; cbn.
  - intros [|t] id r [].
  - intros [|r] n rule E; discriminate E.
  - intros [|r] n E; discriminate E.
Qed.
Lemma error_says d e : externals_are_patterns fs -> wcompile_grammar O C fs flen d main = ferr e -> says main e.
Proof.
  intros Ex E. destruct (nested_post Ex d) as [Np Ni].
  cut (post none empty_wst (wcompile_grammar O C fs flen d main) (fun _ _ => True) (says main)).
  { rewrite E. exact (fun H => H). }
  clear E e. unfold wcompile_grammar. destruct (wnested O C fs flen d) as [rp ri]. cbn [fst snd] in Np, Ni.
  eapply post_bind; [apply (get_post main _ _ (says main)); [apply empty_ok | intros; now constructor]|]. intros s st1 K1 _ (Fs & _).
  eapply post_bind with (Q1 := fun c _ => exists t, c = YRoot main t initial_ns initial_dts).
  { unfold wnew_root. eapply post_bind; [eapply post_weak; [apply new_table_post; exact K1 | exact (fun _ _ _ _ H => H) | intros ? []]|]. intros t st2 K2 _ _. apply post_ret; eauto. }
  intros c st2 K2 _ [t ->].
  eapply post_bind; [apply (schema_post _ _ (YRoot main t initial_ns initial_dts) s); auto; try reflexivity; try exact I|].
  { intros c p P st. apply pattern_post; auto. }
  { intros c l P st H V Pa K W. apply post_iter; [|exact K]. apply Forall_forall. intros x Ix st3 K3. apply content_post; auto. }
  intros c st3 K3 _ _.
  eapply post_bind with (Q1 := fun u _ => forall n, u = Some n -> (exists a, reference_at a n) \/ n = lit "start").
  { unfold wundefined_in. cbn. split; [exact K3|]. split; [apply grows_refl|]. intros n U.
    destruct (find _ _) as [[n' r]|] eqn:Fi; [|discriminate U]. cbn in U. injection U as <-. apply find_some in Fi as [I1 I2].
    destruct (ok_tables _ K3 _ _ _ I1) as [x X]. rewrite (nth_of_error _ _ _ _ X) in I2. cbn in I2. destruct x; [discriminate|]. exact (ok_none _ K3 _ _ X). }
  intros u st4 K4 _ U. destruct u as [n|].
  { cbn. destruct (U n eq_refl) as [[a R] | ->]; [eapply (Sy_undefined_main _ _ _ _ _ n a); auto | eapply (Sy_undefined_main _ _ _ _ _ _ (main, (0, 0)%N)); auto]. }
  eapply post_bind with (Q1 := fun _ _ => True).
  { cbn. split; [exact K4|]. split; [apply grows_refl | exact I]. }
  intros r st5 K5 _ _. destruct r as [r|]; [|cbn; constructor].
  destruct (nth r (wcells st5) ([], None)) as [n [rule|]] eqn:N; [|exact I].
  assert (X : nth_error (wcells st5) r = Some (n, Some rule)).
  { destruct (nth_error (wcells st5) r) eqn:Q; [f_equal; rewrite <- N; symmetry; eapply nth_of_error; eauto|]. apply nth_error_None in Q. rewrite nth_overflow in N by exact Q. discriminate N. }
  assert (Sd := check_said (wcells st5) (fun r' n' rl E' => proj2 (ok_cells _ K5 r' n' rl E')) (S (List.length (wcells st5))) (wrule_pattern rule) [] (proj2 (ok_cells _ K5 _ _ _ X))).
  destruct (wcheck_refs (wcells st5) (S (List.length (wcells st5))) [] (wrule_pattern rule)) as [[sn|e]|p|]; cbn in *; auto.
  - split; [exact K5|]. split; [apply grows_refl | exact I].
  - destruct Sd as (a & m & -> & R). now constructor.
Qed.

(** ** Every position of an error lies in its file *)
Definition item_spans (x : item) : list span :=
  match x with IPat p => pat_spans p | IContent g => content_spans g | IOver i => override_spans i | INc n => nc_spans n end.
Lemma spans_part x y sp : In y (parts x) -> In sp (item_spans y) -> In sp (item_spans x).
Proof.
  intros I J. destruct x as [p|g|i|n].
  - destruct p as [sp' nc p|sp' nc p|p|p|sp' i|sp' i| | | |sp' hr inh|sp' l|p|p1 p2|p1 p2|p1 p2|p|p|p|n v|n ps ex]; cbn in I |- *; try contradiction;
    try (destruct I as [<-|[<-|[]]]; cbn in J; auto using in_or_app; fail);
    try (destruct I as [<-|[]]; exact J).
    + right. apply in_map_iff in I as (g & <- & I). eapply flat_in; eauto.
    + destruct ex; cbn in I; [|contradiction]. destruct I as [<-|[]]. apply in_or_app. right. apply in_or_app. right. exact J.
  - destruct g as [sp' n how p|l|sp' h' inh [l|]|a]; cbn in I |- *; try contradiction.
    + destruct I as [<-|[]]. right. exact J.
    + apply in_map_iff in I as (g & <- & I). eapply flat_in; eauto.
    + right. apply in_or_app. right. apply in_map_iff in I as (g & <- & I). eapply flat_in; eauto.
  - destruct i as [sp' n how p|l|a]; cbn in I |- *; try contradiction.
    + destruct I as [<-|[]]. right. exact J.
    + apply in_map_iff in I as (g & <- & I). eapply flat_in; eauto.
  - destruct n as [nm sp'|nm sp' ex|ex|a b|a]; cbn in I |- *; try contradiction.
    + destruct ex; cbn in I; [|contradiction]. destruct I as [<-|[]]. right. exact J.
    + destruct ex; cbn in I; [|contradiction]. destruct I as [<-|[]]. exact J.
    + apply in_or_app. destruct I as [<-|[<-|[]]]; auto.
    + destruct I as [<-|[]]. exact J.
Qed.
Lemma spans_within x y sp : within x y -> In sp (item_spans y) -> In sp (item_spans x).
Proof. induction 1; auto. intros J. apply IHwithin. eapply spans_part; eauto. Qed.
Lemma leads_written f x : written f x -> forall g y, leads f x g y -> written g y.
Proof.
  intros W g y L. induction L as [|g y z L IH I|g sp h g' s q L IH R E T]; [exact W | eapply written_part; eauto |].
  apply (written_top _ _ _ E). rewrite T. now left.
Qed.
Section Inside.
Hypothesis Pos : positions_ok fs flen.
Lemma written_inside f x sp : written f x -> In sp (item_spans x) -> inside flen (f, sp).
Proof.
  intros (s & t & E & I & W) J. apply (spans_within _ _ _ W) in J. destruct sp as [a b]. apply (Pos f s E).
  destruct (ls_top s) as [p|l]; cbn in I |- *.
  - destruct I as [<-|[]]. exact J.
  - apply in_map_iff in I as (g & <- & I). eapply flat_in; eauto.
Qed.
Lemma definition_inside f sp n q : definition_in f sp n q -> inside flen (f, sp).
Proof. intros [how [W|W]]; eapply written_inside; try exact W; now left. Qed.
Lemma zero_inside f : inside flen (f, (0, 0)%N). Proof. split; apply N.le_0_l. Qed.
Lemma defined_inside a n : defined_at a n -> inside flen a.
Proof.
  destruct a as [f sp]. intros [[q D]|(-> & E & _)]; [eapply definition_inside; exact D|]. cbn in E. subst sp. apply zero_inside.
Qed.
Lemma names_inside f sp f' : names_file f sp f' -> inside flen (f, sp).
Proof. intros (h & _ & [(inh & ov & W)|W]); eapply written_inside; try exact W; now left. Qed.
Lemma prefix_inside a p : prefix_at fs a p -> inside flen a.
Proof.
  destruct a as [f sp]. intros [(l & W)|[(ex & W)|(s & h & i & ov & _ & W)]]; eapply written_inside; try exact W; cbn; auto.
Qed.
Lemma datatype_inside f n sp : datatype_in fs f n -> In sp (dt_spans n) -> inside flen (f, sp).
Proof. intros [(v & W)|(ps & ex & W)] I; eapply written_inside; try exact W; cbn; auto. apply in_or_app. auto. Qed.
Lemma datatype_says_inside f e sp : datatype_says O C fs f e (Some sp) -> inside flen (f, sp).
Proof.
  assert (L : forall n s, names_library n s -> In s (dt_spans n)) by (intros n s [(? & ? & ? & ->)|(? & ? & ? & ->)]; cbn; auto).
  assert (T : forall n s l, names_type n s l -> In s (dt_spans n)) by (intros n s l [(? & ? & ->)|(? & ? & ->)]; cbn; auto).
  assert (Pm : forall n ps ex s, written f (IPat (LData n (Some ps) ex)) -> In s (map fst ps) -> inside flen (f, s)).
  { intros n ps ex s W I. eapply written_inside; [exact W|]. cbn. apply in_or_app. right. apply in_or_app. auto. }
  intros H. inversion H; subst.
  - eapply datatype_inside; [left; eauto | eauto].
  - eapply datatype_inside; [right; eauto | cbn; auto].
  - apply zero_inside.
  - eapply datatype_inside; eauto.
  - eapply datatype_inside; [right; eauto | eauto].
  - eapply datatype_inside; [left; eauto | eauto].
  - eapply Pm; [eassumption | cbn; auto].
  - eapply Pm; [eassumption|]. rewrite map_app. apply in_or_app. right. cbn. auto.
Qed.
Lemma reference_inside a n : reference_at a n -> inside flen a.
Proof. destruct a as [f sp]. intros [W|W]; eapply written_inside; try exact W; cbn; auto. Qed.
Lemma labels_inside syn f e l : (forall n a, syn n = Some a -> inside flen a) -> says f e -> labels syn e = fok l ->
  forall a b, In (a, b) l -> inside flen a.
Proof.
  intros Sy H. revert l. assert (One : forall (a : pos) l, @fok unit _ [(a, true)] = fok l -> inside flen a -> forall a' b, In (a', b) l -> inside flen a').
  { intros a l E K a' b I. injection E as <-. destruct I as [E|[]]. injection E as <- <-. exact K. }
  assert (Two : forall (a a1 : pos) l, @fok unit _ [(a, true); (a1, false)] = fok l -> inside flen a -> inside flen a1 -> forall a' b, In (a', b) l -> inside flen a').
  { intros a a1 l E K K' a' b I. injection E as <-. destruct I as [E|[E|[]]]; injection E as <- <-; assumption. }
  assert (Inc : forall a e, inside flen a -> (forall l, labels syn e = fok l -> forall a b, In (a, b) l -> inside flen a) ->
     forall l, labels syn (WInclude a e) = fok l -> forall a b, In (a, b) l -> inside flen a).
  { intros a e' K IH l E a' b I. cbn in E. destruct (labels syn e') as [[l'|[]]|p|] eqn:L; cbn in E; try discriminate E. injection E as <-.
    apply in_app_or in I as [I|[I|[]]]; [exact (IH _ eq_refl _ _ I) | injection I as <- _; exact K]. }
  induction H; intros ls E.
  - cbn in E. injection E as <-. intros a b I. destruct (syn n) eqn:Sn; [|contradiction]. destruct I as [I|[]]. injection I as <- <-. eapply Sy; eauto.
  - eapply Inc; [eapply names_inside; eauto | exact IHsays | exact E].
  - eapply Inc; [eapply written_inside; [eassumption | now left] | exact IHsays | exact E].
  - eapply Two; [exact E | eapply defined_inside; eauto | eapply defined_inside; eauto].
  - eapply Two; [exact E | eapply defined_inside; eauto | eapply defined_inside; eauto].
  - eapply One; [exact E | eapply prefix_inside; eauto].
  - eapply One; [exact E | eapply datatype_inside; [eassumption | cbn; auto]].
  - destruct a as [sp|]; [|cbn in E; destruct e; try (injection E as <-; intros ? ? []; fail); match goal with x : facet_error |- _ => destruct x end; try discriminate E; injection E as <-; intros ? ? []].
    cbn in E. assert (@fok unit _ [(f, sp, true)] = fok ls) as E' by (destruct e; try exact E; match goal with x : facet_error |- _ => destruct x end; first [exact E | discriminate E]).
    eapply One; [exact E' | eapply datatype_says_inside; eauto].
  - discriminate E.
  - eapply One; [exact E | eapply written_inside; [eassumption | now left]].
  - eapply One; [exact E |]. split; cbn; lia.
  - eapply One; [exact E |]. exact H0.
  - eapply Two; [exact E | | eapply definition_inside; eauto].
    destruct H as [how [W|W]]; eapply written_inside; try exact W; cbn [item_spans content_spans override_spans]; right;
      apply (spans_within _ _ sp) in H0; [exact H0 | now left | exact H0 | now left].
  - eapply Two; [exact E | exact H1 | eapply definition_inside; eauto].
  - eapply Two; [exact E | | eapply written_inside; [eassumption | now left]].
    assert (W : written f (IPat (LElement sp nc q))).
    { eapply leads_written; [|exact H0]. eapply written_part; [exact H|]. cbn. auto. }
    eapply written_inside; [exact W | now left].
  - eapply One; [exact E | eapply names_inside; eauto].
  - eapply One; [exact E | apply zero_inside].
  - eapply Two; [exact E | | split; cbn; lia].
    assert (W : written f (IOver (LIDefine osp n how q))) by (eapply written_part; [exact H|]; cbn; now apply in_map).
    eapply written_inside; [exact W | now left].
  - eapply One; [exact E | apply zero_inside].
  - eapply One; [exact E | eapply reference_inside; eauto].
Qed.
End Inside.
Lemma says_shown f e : says f e -> forall x, core e = WDatatype x None -> x = DFacet FConflict.
Proof.
  induction 1; cbn [core]; intros x E; try discriminate E; auto. destruct a as [a|]; [discriminate E|]. injection E as <-. inversion H; reflexivity.
Qed.
End P.

(** ** The labels of an error: there are some, and the first is the primary one *)
Lemma labels_shape syn : forall e, (forall x, core e = WDatatype x None -> x = DFacet FConflict) -> (forall a, core e <> WDatatype (DFacet FConflict) a) -> (forall p, core e <> WDatatypePrefixAlreadyDefined p) ->
  exists l, labels syn e = fok l /\
    match l with
    | [] => exists n, e = WFile n /\ syn n = None
    | (_, b) :: l' => b = true /\ forall a c, In (a, c) l' -> c = false
    end.
Proof.
  induction e; intros Hs Nc Nd; cbn [labels]; try (eexists; split; [reflexivity|]; split; [reflexivity|]; intros ? ? []; fail);
    try (eexists; split; [reflexivity|]; split; [reflexivity|]; intros ? ? [E|[]]; injection E as _ <-; reflexivity).
  - destruct (syn code) eqn:Sn; eexists; (split; [reflexivity|]); [split; [reflexivity|]; intros ? ? [] | exists code; split; [reflexivity | assumption]].
  - destruct (IHe Hs Nc Nd) as (l & -> & H). eexists. split; [reflexivity|]. destruct l as [|[a b] l]; cbn.
    + split; [reflexivity|]. intros ? ? [].
    + destruct H as [-> H]. split; [reflexivity|]. intros a' c I. apply in_app_or in I as [I|[I|[]]]; [eauto | now injection I as _ <-].
  - exfalso. eapply Nd. reflexivity.
  - destruct at_ as [at_|]; [|exfalso; eapply Nc; cbn [core]; f_equal; apply Hs; reflexivity].
    exists [(at_, true)]. split; [|split; [reflexivity | intros ? ? []]].
    destruct e; try reflexivity; match goal with x : facet_error |- _ => destruct x end; try reflexivity. exfalso. eapply Nc. reflexivity.
Qed.
