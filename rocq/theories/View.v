(** * View: the verdict on any document, in terms of what the validator reads in it.

    [doc_scope] (Infoset.v) makes the validator's reading of a document the one XML prescribes.
    Here there is no such hypothesis: [Reading d root] (below, declarative) describes what the
    validator reads, mistakes included, and the verdict is validity of [root]. *)
From Coq Require Import Permutation String.
From Verif Require Import Base Datatype Store Deriv Events Lang LangFacts Wp Doc DocProof Accept Compile Schema CompileProof Final LangA Spec SpecFacts Sound Scope Infoset InfosetProof Main Perm Verdicts.
Local Open Scope list_scope.

(** ** What the validator reads
    Namespace declarations of the elements started so far, newest element first, whether the
    element is still open or not. *)
Definition seen_decls := list nsenv.
Inductive last_seen (p : str) (u : str) : seen_decls -> Prop :=
| ls_here e s : first_binding p e = Some u -> last_seen p u (e :: s)
| ls_before e s : first_binding p e = None -> last_seen p u s -> last_seen p u (e :: s).
(** no prefix: no namespace, whatever default namespace is declared *)
Inductive name_ns (s : seen_decls) : str -> option str -> Prop :=
| nn_prefix c p u : last_seen (c :: p) u s -> name_ns s (c :: p) (Some u)
| nn_none : name_ns s [] None.

Section Reading.
Variable ents : list (str * str).
(** attribute values are taken literally *)
Inductive RAtt (s : seen_decls) : str * str * str -> attr -> Prop :=
| RAtt_intro p l v u : name_ns s p u -> RAtt s (p, l, v) (Attr (QName u l) v).
(** [RNode s x i s']: reading [x] after the declarations [s] gives the items [i] and leaves [s'] *)
Inductive RNode : seen_decls -> xnode -> list item -> seen_decls -> Prop :=
| R_text s start raw data : text_data ents start raw = inl data -> RNode s (XText start raw) [Txt data] s
| R_cdata s x : RNode s (XCdata x) [Txt x] s
| R_comment s x : RNode s (XComment x) [] s
| R_pi s x : RNode s (XPI x) [] s
| R_elem s p l a sc kids u atts ks s' : name_ns (ns_declared a :: s) p u ->
    Forall2 (RAtt (ns_declared a :: s)) (ordinary a) atts -> RNodes (ns_declared a :: s) kids ks s' ->
    RNode s (XElem p l a sc kids) [Elm (QName u l) atts ks] s'
with RNodes : seen_decls -> list xnode -> list item -> seen_decls -> Prop :=
| Rs_nil s : RNodes s [] [] s
| Rs_cons s x xs i is s1 s2 : RNode s x i s1 -> RNodes s1 xs is s2 -> RNodes s (x :: xs) (i ++ is) s2.
End Reading.
Scheme RNode_mut := Minimality for RNode Sort Prop
  with RNodes_mut := Minimality for RNodes Sort Prop.
Combined Scheme RNode_ind2 from RNode_mut, RNodes_mut.
(** the last declaration of an entity is the binding one, also for the predefined ones *)
Definition read_entities (prolog : list token) : list (str * str) := rev (declared prolog) ++ predefined.
Definition Reading (d : xdoc) (root : item) : Prop := exists s, RNode (read_entities (d_prolog d)) [] (d_root d) [root] s.

(** ** [Reading] is [cview] *)
Definition decls_of (stk : elstack) : seen_decls := map e_ns stk.
Lemma str_eqb_sym a b : str_eqb a b = str_eqb b a.
Proof. destruct (str_eqb a b) eqn:E; symmetry; [apply str_eqb_eq in E; subst; apply str_eqb_refl|]. destruct (str_eqb b a) eqn:E'; [|reflexivity]. apply str_eqb_eq in E'; subst. rewrite str_eqb_refl in E; discriminate. Qed.
Lemma lookup_first_binding k l : lookup_str k l = first_binding k l.
Proof. induction l as [|[k' v] l IH]; [reflexivity|]. cbn. rewrite IH, (str_eqb_sym k' k). reflexivity. Qed.
Lemma lookup_ns_seen stk p u : lookup_ns stk p = Some u <-> last_seen p u (decls_of stk).
Proof.
  induction stk as [|e stk IH]; cbn.
  - split; [discriminate | inversion 1].
  - rewrite lookup_first_binding. destruct (first_binding p (e_ns e)) as [w|] eqn:E.
    + split; [intros H; injection H as ->; apply ls_here; exact E |]. inversion 1 as [? ? Hb|? ? Hb Hs]; subst; rewrite E in Hb; [exact Hb | discriminate Hb].
    + rewrite IH. split; [apply ls_before; exact E|]. inversion 1 as [? ? Hb|? ? Hb Hs]; subst; [rewrite E in Hb; discriminate Hb | exact Hs].
Qed.
Lemma try_lookup_name stk p u : try_lookup_ns stk p = inl u <-> name_ns (decls_of stk) p u.
Proof.
  destruct p as [|c p]; cbn [try_lookup_ns].
  - split; [intros H; injection H as <-; constructor | inversion 1; reflexivity].
  - destruct (lookup_ns stk (c :: p)) as [w|] eqn:E.
    + apply lookup_ns_seen in E as E'. split; [intros H; injection H as <-; constructor; exact E'|].
      inversion 1 as [? ? u' Hl|]; subst. apply lookup_ns_seen in Hl. congruence.
    + split; [discriminate|]. inversion 1 as [? ? u' Hl|]; subst. apply lookup_ns_seen in Hl. congruence.
Qed.
Lemma resolve_RAtt stk a : forall atts, resolve_attrs stk a = inl atts <-> Forall2 (RAtt (decls_of stk)) a atts.
Proof.
  induction a as [|[[p l] v] a IH]; intros atts; cbn [resolve_attrs].
  - split; [intros H; injection H as <-; constructor | inversion 1; reflexivity].
  - replace (match p with [] => inl None | _ :: _ => try_lookup_ns stk p end) with (try_lookup_ns stk p) by (destruct p; reflexivity).
    destruct (try_lookup_ns stk p) as [u|e] eqn:E.
    + apply try_lookup_name in E as E'. destruct (resolve_attrs stk a) as [r|e] eqn:Er.
      * split; [intros H; injection H as <-; constructor; [constructor; exact E' | apply IH; reflexivity]|].
        inversion 1 as [|? y ? atts' HA HF]; subst. inversion HA as [? ? ? u' Hu]; subst. apply try_lookup_name in Hu. rewrite E in Hu. injection Hu as ->.
        apply IH in HF. injection HF as ->. reflexivity.
      * split; [discriminate|]. inversion 1 as [|? y ? atts' HA HF]; subst. apply IH in HF. discriminate.
    + split; [discriminate|]. inversion 1 as [|? y ? atts' HA HF]; subst. inversion HA as [? ? ? u' Hu]; subst. apply try_lookup_name in Hu. congruence.
Qed.
Lemma decls_el p l a stk : decls_of (el_of p l a :: stk) = ns_declared a :: decls_of stk.
Proof. cbn. rewrite ns_decls_declared. reflexivity. Qed.
Lemma decls_app a b : decls_of (a ++ b) = decls_of a ++ decls_of b.
Proof. apply map_app. Qed.

Definition cspec ents (x : xnode) : Prop := forall stk i, (exists s', RNode ents (decls_of stk) x i s') <-> cview ents stk x = Some i.
Definition cleaves ents (x : xnode) : Prop := forall stk i s', RNode ents (decls_of stk) x i s' -> s' = decls_of (elems_of x ++ stk).
Lemma cviews_R ents xs : Forall (fun x => cspec ents x /\ cleaves ents x) xs ->
  (forall stk i, (exists s', RNodes ents (decls_of stk) xs i s') <-> cviews ents stk xs = Some i) /\
  (forall stk i s', RNodes ents (decls_of stk) xs i s' -> s' = decls_of (elems_list xs ++ stk)).
Proof.
  induction 1 as [|x xs [Hx Hl] _ [IH1 IH2]]; split.
  - intros stk i; cbn. split; [intros [s' H]; inversion H; reflexivity | intros H; injection H as <-; eexists; constructor].
  - intros stk i s' H; inversion H; reflexivity.
  - intros stk i; cbn [cviews]. split.
    + intros [s' H]. inversion H as [|? ? ? i1 is s1 s2 H1 H2]; subst. pose proof (Hl _ _ _ H1) as ->.
      rewrite (proj1 (Hx stk i1) (ex_intro _ _ H1)). rewrite (proj1 (IH1 _ is) (ex_intro _ _ H2)). reflexivity.
    + destruct (cview ents stk x) as [w|] eqn:E; [|discriminate]. destruct (cviews ents (elems_of x ++ stk) xs) as [w'|] eqn:E'; [|discriminate].
      intros H; injection H as <-. apply Hx in E. destruct E as [s1 H1]. pose proof (Hl _ _ _ H1) as ->. apply IH1 in E'. destruct E' as [s2 H2].
      exists s2. econstructor; eassumption.
  - intros stk i s' H. inversion H as [|? ? ? i1 is s1 s2 H1 H2]; subst. pose proof (Hl _ _ _ H1) as ->. apply IH2 in H2. rewrite H2. cbn [elems_list]. rewrite app_assoc. reflexivity.
Qed.
Lemma cview_R ents x : cspec ents x /\ cleaves ents x.
Proof.
  induction x as [start raw|s|s|s|p l a sc kids IH] using xnode_ind'.
  1-4: split; [intros stk i; cbn | intros stk i s' H; inversion H; reflexivity].
  - split; [intros [s' H]; inversion H as [? ? ? ? E| | | |]; subst; rewrite E; reflexivity|].
    destruct (text_data ents start raw) as [data|] eqn:E; [|discriminate]. intros H; injection H as <-. eexists; constructor; exact E.
  - split; [intros [s' H]; inversion H; reflexivity | intros H; injection H as <-; eexists; constructor].
  - split; [intros [s' H]; inversion H; reflexivity | intros H; injection H as <-; eexists; constructor].
  - split; [intros [s' H]; inversion H; reflexivity | intros H; injection H as <-; eexists; constructor].
  - destruct (cviews_R ents kids IH) as [I1 I2]. split.
    + intros stk i. rewrite cview_elem. cbv zeta. split.
      * intros [s' H]. inversion H as [| | | |? ? ? ? ? ? u atts ks ? Hn Ha Hk]; subst. rewrite <- (decls_el p l a) in *.
        apply try_lookup_name in Hn. rewrite Hn. rewrite <- plain_atts_ordinary in Ha. apply resolve_RAtt in Ha. rewrite Ha.
        rewrite (proj1 (I1 _ ks) (ex_intro _ _ Hk)). reflexivity.
      * destruct (try_lookup_ns (el_of p l a :: stk) p) as [u|] eqn:Eu; [|discriminate].
        destruct (resolve_attrs (el_of p l a :: stk) (plain_atts a)) as [atts|] eqn:Ea; [|discriminate].
        destruct (cviews ents (el_of p l a :: stk) kids) as [ks|] eqn:Ek; [|discriminate]. intros H; injection H as <-.
        apply try_lookup_name in Eu. apply resolve_RAtt in Ea. rewrite plain_atts_ordinary in Ea. apply I1 in Ek. destruct Ek as [s' Ek].
        rewrite decls_el in *. exists s'. econstructor; eassumption.
    + intros stk i s' H. inversion H as [| | | |? ? ? ? ? ? u atts ks ? Hn Ha Hk]; subst. rewrite <- (decls_el p l a) in Hk.
      apply I2 in Hk. rewrite Hk, elems_of_elem, <- app_assoc. reflexivity.
Qed.
Lemma ents_after_rev ts : forall e, ents_after e ts = rev (declared ts) ++ e.
Proof.
  induction ts as [|t ts IH]; intros e; [reflexivity|].
  destruct t as [| | | | | |n [v|]| | | | |]; cbn [ents_after declared]; rewrite IH; try reflexivity. cbn [rev]. rewrite <- app_assoc. reflexivity.
Qed.
Lemma reading_cview d root : Reading d root <-> cview (ents_after initial_entities (d_prolog d)) [] (d_root d) = Some [root].
Proof.
  unfold Reading, read_entities. rewrite ents_after_rev. change initial_entities with predefined.
  apply (proj1 (cview_R _ (d_root d)) [] [root]).
Qed.

(** ** Any stream settles when validated up to the first error *)
Section Total.
Variable O : oracles.
Variable allowed : panic -> Prop.
Variable T : nameclass -> ctype.
Hypothesis allowed_push : allowed PTooManyPatterns.
Theorem run_total toks : forall v seen, Accept.Inv O allowed T v -> (seen = true -> v_stack v <> []) -> stream_ok seen toks ->
  exists n r, (forall m, n <= m -> run O m v toks = r) /\ match r with Ok _ => True | Panic p => allowed p | OutOfFuel => False end.
Proof.
  induction toks as [|tk toks IH]; intros v seen HI Hs Hok.
  - exists 0, (Ok (v, None)); split; [reflexivity | exact I].
  - assert (Ht : tok_ok v tk).
    { destruct tk as [| | | | | |nm [dd|]|pp ll|pp ll vv|[|pp ll|]|s0 tx|tx]; cbn in *; auto; apply Hs, Hok. }
    destruct (validate_total O allowed T allowed_push v tk HI Ht) as (n & r & Hn & Hr).
    destruct r as [[v' [e|]]|p|]; [| | |contradiction].
    + exists n, (Ok (v', Some e)); split; [|exact I]. intros m Hm; cbn [run]; rewrite (Hn m Hm); reflexivity.
    + destruct (validate_stack O n v tk v' None (Hn n (le_n n))) as (v1 & He & Hst).
      assert (Hrest : exists seen', (seen' = true -> v_stack v' <> []) /\ stream_ok seen' toks).
      { destruct tk as [| | | | | |nm [dd|]|pp ll|pp ll vv|[|pp ll|]|s0 tx|tx]; cbn in Hok;
          try (exists seen; split; [rewrite Hst; intros Es; eapply stack_effect_nil; [exact He | exact (Hs Es)] | try exact Hok; apply Hok]; fail).
        exists true; split; [|exact Hok]. rewrite Hst. cbn in He. injection He as <-. intros _; cbn. discriminate. }
      destruct Hrest as (seen' & Hs' & Hok'). destruct (IH v' seen' Hr Hs' Hok') as (n2 & r2 & Hn2 & Hr2).
      exists (n + n2), r2; split; [|exact Hr2]. intros m Hm; cbn [run]; rewrite (Hn m) by lia; cbn [rbind]; apply Hn2; lia.
    + exists n, (Panic p); split; [|exact Hr]. intros m Hm; cbn [run]; rewrite (Hn m Hm); reflexivity.
Qed.
End Total.

Lemma stream_app a : forall seen b, stream_ok seen a -> stream_ok true b -> (seen = true \/ exists p l, In (TElementStart p l) a) -> stream_ok seen (a ++ b).
Proof.
  induction a as [|t a IH]; intros seen b Ha Hb H; cbn [app].
  - destruct H as [->|(p & l & [])]; exact Hb.
  - destruct t as [| | | | | |nm dd|pp ll|pp ll vv|[|pp ll|]|s0 tx|tx]; cbn [stream_ok] in *;
      try (apply IH; [exact Ha | exact Hb | destruct H as [H|(p & l & [H|H])]; [auto | discriminate H | eauto]]; fail).
    + apply IH; auto.
    + destruct Ha as [-> Ha]. split; [reflexivity | apply IH; auto].
    + destruct Ha as [-> Ha]. split; [reflexivity | apply IH; auto].
    + destruct Ha as [-> Ha]. split; [reflexivity | apply IH; auto].
Qed.
Lemma stream_seen a : stream_ok false a -> stream_ok true a.
Proof. induction a as [|t a IH]; [auto|]. destruct t as [| | | | | |nm dd|pp ll|pp ll vv|[|pp ll|]|s0 tx|tx]; cbn; try exact IH; try tauto; intros [H _]; discriminate H. Qed.
Lemma node_stream x : stream_ok true (tokens_of x).
Proof.
  induction x as [start raw|s|s|s|p l a sc kids IH] using xnode_ind'; cbn; auto.
  assert (HA : forall l, stream_ok true (map att_token l)) by (induction l0 as [|[[q r] w] l0 IHl]; cbn; auto).
  apply stream_app; [apply HA | | left; reflexivity].
  destruct (sc && is_nil kids); cbn; [auto|]. split; [reflexivity|].
  apply stream_app; [|cbn; exact I | left; reflexivity].
  induction IH as [|k ks Hk _ IHk]; [exact I|]. cbn. apply stream_app; [exact Hk | exact IHk | left; reflexivity].
Qed.
Lemma misc_stream l : Forall misc_token l -> stream_ok true l.
Proof. induction 1 as [|t l Ht _ IH]; [exact I|]. destruct t as [| | | | | |nm dd|pp ll|pp ll vv|[|pp ll|]|s0 tx|tx]; cbn in *; try exact IH; contradiction. Qed.
Lemma misc_stream0 l : Forall misc_token l -> forall r, stream_ok false r -> stream_ok false (l ++ r).
Proof. induction 1 as [|t l Ht _ IH]; intros r Hr; [exact Hr|]. destruct t as [| | | | | |nm dd|pp ll|pp ll vv|[|pp ll|]|s0 tx|tx]; cbn in *; try (apply IH; exact Hr); contradiction. Qed.
Lemma doc_stream d : doc_wf d -> stream_ok false (doc_tokens d).
Proof.
  intros (W1 & W2 & W3). apply misc_stream0; [exact W1|]. destruct (d_root d) as [| | | |p l a sc kids] eqn:E; try contradiction.
  pose proof (node_stream (XElem p l a sc kids)) as H. cbn [tokens_of app stream_ok] in *.
  apply stream_app; [exact H | apply misc_stream; exact W2 | left; reflexivity].
Qed.

(** ** A document read without error has a reading *)
Section Read.
Variable O : oracles.
Lemma validate_cur fuel v t v' e : validate O fuel v t = Ok (v', e) -> nth_error (pats (v_store v)) (v_cur v) <> None.
Proof. unfold validate, validate_step, bind, patt. destruct (nth_error (pats (v_store v)) (v_cur v)); [discriminate | discriminate]. Qed.
Lemma validate_ents fuel v t v' e : validate O fuel v t = Ok (v', e) -> match t with TEntityDeclaration _ (Some _) => True | _ => v_ents v' = v_ents v end.
Proof.
  unfold validate. destruct (validate_step O fuel v t (v_store v)) as [[r st]| |]; cbn; try discriminate.
  destruct (stack_effect v t) as [v1| |] eqn:Es; cbn; try discriminate. intros H.
  assert (He : v_ents v' = v_ents v1).
  { destruct r as [[c|]|er]; [|injection H as <- <-; reflexivity|injection H as <- <-; reflexivity].
    destruct (patt c st) as [[x st2]| |]; cbn in H; try discriminate. destruct (is_not_allowed x); injection H as <- <-; reflexivity. }
  destruct t as [| | | | | |nm [dd|]|pp ll|pp ll vv|[|pp ll|]|s0 tx|tx]; cbn in Es; try (injection Es as <-; exact He); auto.
  destruct (add_attr (v_stack v) pp ll vv) as [stk| |]; cbn in Es; try discriminate. injection Es as <-. exact He.
Qed.
Lemma run_inv fuel v t ts v' : run O fuel v (t :: ts) = Ok (v', None) -> exists v1, validate O fuel v t = Ok (v1, None) /\ run O fuel v1 ts = Ok (v', None).
Proof. cbn [run]. destruct (validate O fuel v t) as [[v1 [e|]]| |]; cbn; try discriminate. eauto. Qed.
Lemma run_app_inv fuel a b v v' : run O fuel v (a ++ b) = Ok (v', None) -> exists v1, run O fuel v a = Ok (v1, None) /\ run O fuel v1 b = Ok (v', None).
Proof. rewrite run_app. destruct (run O fuel v a) as [[v1 [e|]]| |]; cbn; try discriminate. eauto. Qed.
Lemma close_start_names fuel stk evt p st r st' : close_element_start O fuel stk evt p st = Ok (inl r, st') ->
  exists nm atts, current_element stk = Ok (inl nm) /\ current_attributes stk = Ok (inl atts).
Proof.
  unfold close_element_start, bind, lift. destruct (current_element stk) as [[nm|e]| |]; cbn; try discriminate.
  destruct (start_tag_open_deriv fuel p nm st) as [[d st1]| |]; cbn; try discriminate.
  destruct (patt d st1) as [[x st2]| |]; cbn; try discriminate. destruct (is_not_allowed x); cbn; [discriminate|].
  destruct (current_attributes stk) as [[al|e]| |]; cbn; try discriminate. eauto.
Qed.
Lemma open_names fuel v e v' : (e = EndOpen \/ e = EndEmpty) -> validate O fuel v (TElementEnd e) = Ok (v', None) ->
  exists nm atts, current_element (v_stack v) = Ok (inl nm) /\ current_attributes (v_stack v) = Ok (inl atts).
Proof.
  intros He. unfold validate, validate_step, bind. destruct (patt (v_cur v) (v_store v)) as [[p st]| |]; cbn; [|destruct He as [-> | ->]; discriminate|destruct He as [-> | ->]; discriminate].
  destruct He as [-> | ->]; destruct (close_element_start O fuel (v_stack v) _ p st) as [[[i|er] st1]| |] eqn:E; cbn; try discriminate;
    intros _; eapply close_start_names; exact E.
Qed.
Definition reads_in (x : xnode) : Prop := forall fuel v v', run O fuel v (tokens_of x) = Ok (v', None) ->
  (exists i, cview (v_ents v) (v_stack v) x = Some i) /\ v_stack v' = elems_of x ++ v_stack v /\ v_ents v' = v_ents v.
Lemma reads_list xs : Forall reads_in xs -> forall fuel v v', run O fuel v (flat_map tokens_of xs) = Ok (v', None) ->
  (exists i, cviews (v_ents v) (v_stack v) xs = Some i) /\ v_stack v' = elems_list xs ++ v_stack v /\ v_ents v' = v_ents v.
Proof.
  induction 1 as [|x xs Hx _ IH]; intros fuel v v' H.
  - cbn in H. injection H as <-. split; [eexists; reflexivity | auto].
  - cbn [flat_map] in H. apply run_app_inv in H. destruct H as (v1 & H1 & H2). apply Hx in H1. destruct H1 as ([i1 E1] & S1 & N1).
    apply IH in H2. destruct H2 as ([i2 E2] & S2 & N2). cbn [cviews elems_list]. rewrite E1. rewrite N1, S1 in E2. rewrite E2.
    split; [eexists; reflexivity|]. rewrite S2, S1, app_assoc. split; congruence.
Qed.
Lemma one_stack fuel v t v' : run O fuel v [t] = Ok (v', None) -> exists v1, stack_effect v t = Ok v1 /\ v_stack v' = v_stack v1 /\
  match t with TEntityDeclaration _ (Some _) => True | _ => v_ents v' = v_ents v end.
Proof.
  intros H. apply run_inv in H. destruct H as (v1 & H1 & H2). cbn in H2. injection H2 as <-.
  destruct (validate_stack O _ _ _ _ _ H1) as (v2 & E & S). exists v2. split; [exact E|]. split; [exact S|]. exact (validate_ents _ _ _ _ _ H1).
Qed.
Lemma reads_node x : reads_in x.
Proof.
  induction x as [start raw|s|s|s|p l a sc kids IH] using xnode_ind'; intros fuel v v' H.
  - destruct (one_stack _ _ _ _ H) as (v1 & E & S & N). cbn in E. injection E as <-. split; [|split; assumption].
    cbn. apply run_inv in H. destruct H as (v1 & H & _). unfold validate, validate_step, bind in H.
    destruct (patt (v_cur v) (v_store v)) as [[pp st]| |]; cbn in H; try discriminate.
    destruct (text_data (v_ents v) start raw); [eexists; reflexivity | discriminate H].
  - destruct (one_stack _ _ _ _ H) as (v1 & E & S & N). cbn in E. injection E as <-. split; [eexists; reflexivity | split; assumption].
  - destruct (one_stack _ _ _ _ H) as (v1 & E & S & N). cbn in E. injection E as <-. split; [eexists; reflexivity | split; assumption].
  - destruct (one_stack _ _ _ _ H) as (v1 & E & S & N). cbn in E. injection E as <-. split; [eexists; reflexivity | split; assumption].
  - cbn [tokens_of] in H. change (TElementStart p l :: map att_token a ++ ?r) with ((TElementStart p l :: map att_token a) ++ r) in H.
    rewrite app_comm_cons in H. apply run_app_inv in H. destruct H as (v1 & H1 & H2).
    assert (Hc : nth_error (pats (v_store v)) (v_cur v) <> None).
    { apply run_inv in H1. destruct H1 as (w & H1 & _). eapply validate_cur; exact H1. }
    rewrite (start_tokens O fuel p l a v Hc) in H1. injection H1 as <-. rewrite cview_elem. cbv zeta.
    set (v1 := Validator (v_store v) (v_cur v) (v_last v) (el_of p l a :: v_stack v) (v_ents v)) in *.
    assert (Hnames : forall nm atts, current_element (v_stack v1) = Ok (inl nm) -> current_attributes (v_stack v1) = Ok (inl atts) ->
      exists u, try_lookup_ns (el_of p l a :: v_stack v) p = inl u /\ resolve_attrs (el_of p l a :: v_stack v) (plain_atts a) = inl atts).
    { intros nm atts. cbn [v_stack v1 current_element current_attributes el_of e_prefix e_local e_atts].
      destruct (try_lookup_ns _ p) as [u|er]; [|discriminate]. intros _ HA. injection HA as HA. eauto. }
    destruct (sc && is_nil kids) eqn:Esc.
    + apply andb_true_iff in Esc; destruct Esc as [_ Enil]. destruct kids; [|discriminate Enil].
      destruct (one_stack _ _ _ _ H2) as (v2 & E & S & N). cbn in E. injection E as <-.
      apply run_inv in H2. destruct H2 as (v2 & H2 & _). destruct (open_names fuel v1 EndEmpty v2 (or_intror eq_refl) H2) as (nm & atts & C1 & C2).
      destruct (Hnames _ _ C1 C2) as (u & -> & ->). cbn [cviews]. split; [eexists; reflexivity|]. split; [exact S | exact N].
    + apply run_inv in H2. destruct H2 as (v2 & H2 & H3).
      destruct (open_names fuel v1 EndOpen v2 (or_introl eq_refl) H2) as (nm & atts & C1 & C2). destruct (Hnames _ _ C1 C2) as (u & -> & ->).
      destruct (validate_stack O _ _ _ _ _ H2) as (v2' & E & S). cbn in E. injection E as <-. pose proof (validate_ents _ _ _ _ _ H2) as N. cbn in N.
      apply run_app_inv in H3. destruct H3 as (v3 & H3 & H4). apply (reads_list kids IH) in H3. destruct H3 as ([ks Ek] & S3 & N3).
      rewrite N, S in Ek. cbn [v_ents v_stack v1] in Ek. rewrite Ek. split; [eexists; reflexivity|].
      destruct (one_stack _ _ _ _ H4) as (v4 & E4 & S4 & N4). cbn in E4. injection E4 as <-. rewrite elems_of_elem, <- app_assoc. cbn [app].
      split; [rewrite S4, S3, S; reflexivity | rewrite N4, N3, N; reflexivity].
Qed.
End Read.

(** ** The verdict *)
(** what is read has pieces of character data only in elements to which the schema gives no data,
    value or list *)
Definition pieces_fit (defs : list mpat) (start : mpat) (root : item) : Prop := forall q, In q (pieces root) -> no_data defs start q.
(** and no white space outside XML's, if the schema uses lists *)
Definition content_fits (defs : list mpat) (start : mpat) (root : item) : Prop := pieces_fit defs start root /\ plain_for defs start root.
Section Decide.
Variable O : oracles.
Variable defs : list mpat.
Variable start : mpat.
Hypothesis Hrng : rng_schema defs start.
Hypothesis Hlim : in_limits defs start.

Lemma reading_elem d root : doc_wf d -> Reading d root -> exists nm a k, root = Elm nm a k.
Proof.
  intros (_ & _ & W) [s H]. destruct (d_root d); try contradiction. inversion H; subst. eauto.
Qed.
Theorem view_decides d root : doc_wf d -> Reading d root -> pieces_fit defs start root -> plain_for defs start root ->
  accepts O defs start (doc_tokens d) /\ M O defs false [] [merged root] start \/
  rejects O defs start (doc_tokens d) /\ ~ M O defs false [] [merged root] start \/
  overflows O defs start (doc_tokens d).
Proof.
  intros Hwf Hread Hsp Hpl. pose proof (proj1 (reading_cview d root) Hread) as Hcv. destruct (reading_elem d root Hwf Hread) as (nm & a & k & ->).
  apply raw_decides; assumption.
Qed.
Theorem view_decides_uni d root : doc_wf d -> Reading d root -> pieces_fit defs start root ->
  accepts O defs start (doc_tokens d) /\ Mg is_uni_ws O defs false [] [merged root] start \/
  rejects O defs start (doc_tokens d) /\ ~ Mg is_uni_ws O defs false [] [merged root] start \/
  overflows O defs start (doc_tokens d).
Proof.
  intros Hwf Hread Hsp. pose proof (proj1 (reading_cview d root) Hread) as Hcv. destruct (reading_elem d root Hwf Hread) as (nm & a & k & ->).
  apply raw_decides_uni; assumption.
Qed.
Theorem view_settles d : doc_wf d -> accepts O defs start (doc_tokens d) \/ rejects O defs start (doc_tokens d) \/ overflows O defs start (doc_tokens d).
Proof.
  intros Hwf. pose proof (scope_ok defs O start Hrng Hlim) as Hok.
  destruct (new_validator_ok O lim defs any_type start Hok) as (n & r & Hn & Hr).
  destruct Hr as [->|(st & id & -> & HI & HR & HSE & HG & HK)].
  { right; right. exists n. intros m Hm. unfold check. rewrite (Hn m Hm). reflexivity. }
  destruct (run_total O lim any_type eq_refl (doc_tokens d) (Validator st id false [] initial_entities) false) as (n2 & r & Hn2 & Hr).
  - split; [exact HG|]. split; [reflexivity|]. exists 0, TN, []. exact HK.
  - discriminate.
  - apply doc_stream; exact Hwf.
  - assert (Hset : settles (check O defs start (doc_tokens d)) r).
    { exists (n + n2). intros m Hm. unfold check. rewrite (Hn m) by lia. cbn [rbind]. apply Hn2. lia. }
    destruct r as [[v [e|]]|p|]; [| | |contradiction].
    + right; left. exists v, e; exact Hset.
    + left. exists v; exact Hset.
    + right; right. unfold lim in Hr. subst p. exact Hset.
Qed.
Lemma new_validator_shape fuel v : new_validator defs fuel (Some start) = Ok v -> v_stack v = [] /\ v_ents v = initial_entities.
Proof.
  unfold new_validator. repeat match goal with |- rbind ?x _ = _ -> _ => destruct x as [[]| |]; cbn; try discriminate end.
  all: intros H; injection H as <-; auto.
Qed.
Lemma run_misc_inv fuel toks : Forall misc_token toks -> forall v v', run O fuel v toks = Ok (v', None) ->
  v_stack v' = v_stack v /\ v_ents v' = ents_after (v_ents v) toks.
Proof.
  induction 1 as [|t toks Ht _ IH]; intros v v' H; [cbn in H; injection H as <-; auto|].
  apply run_inv in H. destruct H as (v1 & H1 & H2). destruct (IH _ _ H2) as [S N].
  destruct (validate_stack O _ _ _ _ _ H1) as (v2 & E & S2). pose proof (validate_cur _ _ _ _ _ _ H1) as Hc.
  pose proof (run_misc O fuel [t] (Forall_cons t Ht (Forall_nil _)) v Hc) as Hm. cbn [run] in Hm. rewrite H1 in Hm. cbn [rbind] in Hm. injection Hm as ->.
  cbn [v_stack v_ents] in *. split; [exact S|]. rewrite N. destruct t as [| | | | | |nm [dd|]|pp ll|pp ll vv|[|pp ll|]|s0 tx|tx]; reflexivity || contradiction.
Qed.
(** what is accepted has been read *)
Theorem accepted_read d : doc_wf d -> accepts O defs start (doc_tokens d) -> exists root, Reading d root.
Proof.
  intros (W1 & W2 & W3) [v [n H]]. specialize (H n (le_n n)). unfold check in H. destruct (new_validator defs n (Some start)) as [v0| |] eqn:E0; cbn in H; try discriminate.
  destruct (new_validator_shape _ _ E0) as [S0 N0]. unfold doc_tokens in H. apply run_app_inv in H. destruct H as (v1 & H1 & H2).
  destruct (run_misc_inv n _ W1 _ _ H1) as [S1 N1]. apply run_app_inv in H2. destruct H2 as (v2 & H2 & _).
  destruct (reads_node O (d_root d) n v1 v2 H2) as ([i Ei] & _). rewrite N1, S1, N0, S0 in Ei.
  destruct (d_root d) as [| | | |p l a sc kids] eqn:Ed; try contradiction. pose proof Ei as Ei'. rewrite cview_elem in Ei'. cbv zeta in Ei'.
  destruct (try_lookup_ns _ p) as [u|]; [|discriminate]. destruct (resolve_attrs _ _) as [atts|]; [|discriminate]. destruct (cviews _ _ kids) as [ks|]; [|discriminate].
  injection Ei' as <-. eexists. apply reading_cview. rewrite Ed. exact Ei.
Qed.
Theorem unread_rejected d : doc_wf d -> (forall root, ~ Reading d root) -> rejects O defs start (doc_tokens d) \/ overflows O defs start (doc_tokens d).
Proof.
  intros Hwf Hno. destruct (view_settles d Hwf) as [H|H]; [|exact H]. destruct (accepted_read d Hwf H) as [root Hr]. destruct (Hno root Hr).
Qed.
Lemma reading_fun d r r' : Reading d r -> Reading d r' -> r = r'.
Proof. rewrite !reading_cview. congruence. Qed.
(** exact characterisation of acceptance *)
Theorem view_accepts d : doc_wf d -> (forall root, Reading d root -> content_fits defs start root) -> ~ overflows O defs start (doc_tokens d) ->
  (accepts O defs start (doc_tokens d) <-> exists root, Reading d root /\ M O defs false [] [merged root] start).
Proof.
  intros Hwf Hok Ho. split.
  - intros HA. destruct (accepted_read d Hwf HA) as [root Hr]. destruct (Hok root Hr) as [H1 H2]. exists root; split; [exact Hr|].
    destruct (view_decides d root Hwf Hr H1 H2) as [[_ H]|[[H _]|H]]; [exact H | destruct (acc_rej _ _ _ _ HA H) | contradiction].
  - intros (root & Hr & HM). destruct (Hok root Hr) as [H1 H2].
    destruct (view_decides d root Hwf Hr H1 H2) as [[H _]|[[_ H]|H]]; [exact H | contradiction | contradiction].
Qed.
(** the same, whatever the white space: lists are split at Unicode white space *)
Theorem view_accepts_uni d : doc_wf d -> (forall root, Reading d root -> pieces_fit defs start root) -> ~ overflows O defs start (doc_tokens d) ->
  (accepts O defs start (doc_tokens d) <-> exists root, Reading d root /\ Mg is_uni_ws O defs false [] [merged root] start).
Proof.
  intros Hwf Hok Ho. split.
  - intros HA. destruct (accepted_read d Hwf HA) as [root Hr]. pose proof (Hok root Hr) as H1. exists root; split; [exact Hr|].
    destruct (view_decides_uni d root Hwf Hr H1) as [[_ H]|[[H _]|H]]; [exact H | destruct (acc_rej _ _ _ _ HA H) | contradiction].
  - intros (root & Hr & HM). pose proof (Hok root Hr) as H1.
    destruct (view_decides_uni d root Hwf Hr H1) as [[H _]|[[_ H]|H]]; [exact H | contradiction | contradiction].
Qed.
End Decide.

(** ** Attribute order, for any document *)
(** no namespace prefix is declared twice in a start tag (XML forbids repeated attributes) *)
Fixpoint once (x : xnode) : Prop :=
  match x with
  | XElem _ _ a _ kids => NoDup (map fst (ns_declared a)) /\
      (fix go (ks : list xnode) : Prop := match ks with [] => True | k :: ks' => once k /\ go ks' end) kids
  | _ => True
  end.
Fixpoint onces (ks : list xnode) : Prop := match ks with [] => True | k :: ks' => once k /\ onces ks' end.
Lemma once_perm : (forall x y, xperm x y -> once x -> once y) /\ (forall k l, xperms k l -> onces k -> onces l).
Proof.
  apply xperm_ind2; try (intros; assumption).
  - intros p l a b sc k k' HP HK IH H. change (NoDup (map fst (ns_declared a)) /\ onces k) in H. change (NoDup (map fst (ns_declared b)) /\ onces k').
    destruct H as [H1 H2]. split; [|auto]. eapply Permutation_NoDup; [|exact H1]. apply Permutation_map, ns_declared_perm; exact HP.
  - intros x y k l Hx IHx Hk IHk [H1 H2]; split; auto.
Qed.
Lemma once_binding k a b : NoDup (map fst a) -> Permutation a b -> first_binding k a = first_binding k b.
Proof. intros HN. apply first_binding_perm. intros p u u' H1 H2. eapply nodup_fun; eassumption. Qed.
Definition seen_eq (s s' : seen_decls) : Prop := Forall2 env_eq s s'.
Lemma last_seen_eq s s' p u : seen_eq s s' -> last_seen p u s -> last_seen p u s'.
Proof.
  intros H. induction H as [|e e' s s' He Hs IH]; inversion 1 as [? ? Hb|? ? Hb Hl]; subst; rewrite He in Hb; [apply ls_here | apply ls_before]; auto.
Qed.
Lemma name_ns_eq s s' p u : seen_eq s s' -> name_ns s p u -> name_ns s' p u.
Proof. intros H HN; inversion HN; subst; constructor. eapply last_seen_eq; eassumption. Qed.
Lemma RNode_perm ents :
  (forall s x i s1, RNode ents s x i s1 -> once x -> forall s' x', seen_eq s s' -> xperm x x' -> exists i' s1', RNode ents s' x' i' s1' /\ iperms i i' /\ seen_eq s1 s1') /\
  (forall s k i s1, RNodes ents s k i s1 -> onces k -> forall s' k', seen_eq s s' -> xperms k k' -> exists i' s1', RNodes ents s' k' i' s1' /\ iperms i i' /\ seen_eq s1 s1').
Proof.
  apply RNode_ind2.
  - intros s start raw data HD _ s' x' HE HX. inversion HX; subst. eexists _, _; split; [constructor; exact HD|]. split; [repeat constructor | exact HE].
  - intros s x _ s' x' HE HX. inversion HX; subst. eexists _, _; split; [constructor|]. split; [repeat constructor | exact HE].
  - intros s x _ s' x' HE HX. inversion HX; subst. eexists _, _; split; [constructor|]. split; [repeat constructor | exact HE].
  - intros s x _ s' x' HE HX. inversion HX; subst. eexists _, _; split; [constructor|]. split; [repeat constructor | exact HE].
  - intros s p l a sc kids u atts ks s1 H1 H2 H3 IH HO s' x' HE HX. change (NoDup (map fst (ns_declared a)) /\ onces kids) in HO. destruct HO as [Hd Hds].
    inversion HX as [| | | |? ? ? b ? ? k' HP HK]; subst.
    assert (HE' : seen_eq (ns_declared a :: s) (ns_declared b :: s')).
    { constructor; [|exact HE]. intros q. apply once_binding; [exact Hd | apply ns_declared_perm; exact HP]. }
    destruct (IH Hds _ _ HE' HK) as (ks' & s1' & Hks & HI & HS).
    assert (H2' : Forall2 (RAtt (ns_declared b :: s')) (ordinary a) atts).
    { eapply Forall2_imp; [|exact H2]. intros x y HA. inversion HA; subst. constructor. eapply name_ns_eq; eassumption. }
    destruct (Forall2_perm _ _ _ (filter_perm _ _ _ HP) _ H2') as (atts' & Ha & HPa).
    eexists _, _; split; [econstructor; [eapply name_ns_eq; eassumption | exact Ha | exact Hks]|]. split; [|exact HS].
    constructor; [|constructor]. constructor; [exact HPa | exact HI].
  - intros s _ s' k' HE HX. inversion HX; subst. eexists _, _; split; [constructor|]. split; [constructor | exact HE].
  - intros s x xs i is s1 s2 Hk IHk Hks IHks [Hd Hds] s' k' HE HX. inversion HX as [|? y ? l Hx Hl]; subst.
    destruct (IHk Hd _ _ HE Hx) as (i' & s1' & Hi & HI & HS). destruct (IHks Hds _ _ HS Hl) as (is' & s2' & His & HIs & HS2).
    exists (i' ++ is'), s2'. split; [econstructor; eassumption|]. split; [apply iperms_app; assumption | exact HS2].
Qed.
Lemma reordered_Reading d d' root : reordered d d' -> once (d_root d) -> Reading d root -> exists root', Reading d' root' /\ iperm root root'.
Proof.
  intros (E1 & E2 & HX) Ho [s HD]. rewrite E1 in HD.
  destruct (proj1 (RNode_perm _) _ _ _ _ HD Ho [] (d_root d') (Forall2_nil _) HX) as (i' & s' & Hi & HI & _).
  inversion HI as [|x y k l Hx Hl]; subst. inversion Hl; subst. exists y. split; [exists s'; exact Hi | exact Hx].
Qed.
Lemma xperm_sym : (forall x y, xperm x y -> xperm y x) /\ (forall k l, xperms k l -> xperms l k).
Proof. apply xperm_ind2; intros; constructor; auto using Permutation_sym'. Qed.
Lemma reordered_sym d d' : reordered d d' -> reordered d' d.
Proof. intros (E1 & E2 & HX). split; [congruence|]. split; [congruence|]. apply (proj1 xperm_sym); exact HX. Qed.
Lemma reordered_wf d d' : reordered d d' -> doc_wf d -> doc_wf d'.
Proof. intros (E1 & E2 & HX) (W1 & W2 & W3). rewrite E1 in W1. rewrite E2 in W2. split; [exact W1|]. split; [exact W2|]. destruct HX; exact W3. Qed.
Lemma iperms_whole k l : iperms k l -> whole k = whole l.
Proof.
  intros H. unfold whole. f_equal.
  - induction H as [|x y k l Hx Hl IH]; [reflexivity|]. inversion Hx; subst; [|exact IH]. inversion Hl as [|x' y' k' l' Hx' Hl']; subst; [reflexivity|]. inversion Hx'; subst; [reflexivity | exact IH].
  - induction H as [|x y k l Hx Hl IH]; [reflexivity|]. cbn [forallb]. rewrite IH. inversion Hx; reflexivity.
Qed.
Lemma iperm_pieces : (forall x y, iperm x y -> pieces x = pieces y) /\ (forall k l, iperms k l -> flat_map pieces k = flat_map pieces l).
Proof.
  apply iperm_ind2.
  - reflexivity.
  - intros nm a b k l HP Hk IH. cbn [pieces]. rewrite IH, (iperms_whole _ _ Hk). reflexivity.
  - reflexivity.
  - intros x y k l Hx IHx Hk IHk. cbn [flat_map]. rewrite IHx, IHk. reflexivity.
Qed.
Lemma iperm_merged : (forall x y, iperm x y -> iperm (merged x) (merged y)) /\ (forall k l, iperms k l -> iperms (map merged k) (map merged l)).
Proof.
  apply iperm_ind2.
  - constructor.
  - intros nm a b k l HP Hk IH. cbn [merged]. constructor; [exact HP | apply iperms_joined; exact IH].
  - constructor.
  - intros x y k l Hx IHx Hk IHk. cbn [map]. constructor; assumption.
Qed.
Theorem view_order O defs start d d' : rng_schema defs start -> in_limits defs start -> doc_wf d -> once (d_root d) ->
  (forall root, Reading d root -> pieces_fit defs start root) -> reordered d d' ->
  ~ overflows O defs start (doc_tokens d) -> ~ overflows O defs start (doc_tokens d') ->
  (accepts O defs start (doc_tokens d) <-> accepts O defs start (doc_tokens d')).
Proof.
  intros HR HL Hwf Ho Hok HX Hv Hv'.
  assert (Hok' : forall root, Reading d' root -> pieces_fit defs start root).
  { intros root' Hr'. destruct (reordered_Reading d' d root' (reordered_sym _ _ HX)) as (root & Hr & HI);
      [destruct HX as (_ & _ & HX); eapply (proj1 once_perm); eassumption | exact Hr'|].
    pose proof (Hok root Hr) as H1. unfold pieces_fit. rewrite (proj1 iperm_pieces _ _ HI); exact H1. }
  rewrite (view_accepts_uni O defs start HR HL d Hwf Hok Hv), (view_accepts_uni O defs start HR HL d' (reordered_wf _ _ HX Hwf) Hok' Hv').
  split; intros (root & Hr & HM).
  - destruct (reordered_Reading d d' root HX Ho Hr) as (root' & Hr' & HI). exists root'; split; [exact Hr'|].
    eapply (proj1 (M_iperm O defs false)); [exact HM | constructor | constructor; [apply (proj1 iperm_merged); exact HI | constructor]].
  - destruct (reordered_Reading d' d root (reordered_sym _ _ HX)) as (root' & Hr' & HI); [destruct HX as (_ & _ & HX); eapply (proj1 once_perm); eassumption | exact Hr|].
    exists root'; split; [exact Hr'|]. eapply (proj1 (M_iperm O defs false)); [exact HM | constructor | constructor; [apply (proj1 iperm_merged); exact HI | constructor]].
Qed.
(** ** The verdict depends only on what is read, character data joined *)
Definition ReadsAs (d : xdoc) (r : item) : Prop := exists root, Reading d root /\ merged root = r.
Theorem view_content O defs start d d' : rng_schema defs start -> in_limits defs start -> doc_wf d -> doc_wf d' ->
  (forall root, Reading d root -> pieces_fit defs start root) -> (forall root, Reading d' root -> pieces_fit defs start root) ->
  (forall r, ReadsAs d r <-> ReadsAs d' r) ->
  ~ overflows O defs start (doc_tokens d) -> ~ overflows O defs start (doc_tokens d') ->
  (accepts O defs start (doc_tokens d) <-> accepts O defs start (doc_tokens d')).
Proof.
  intros HR HL Hwf Hwf' Hok Hok' HE Hv Hv'.
  rewrite (view_accepts_uni O defs start HR HL d Hwf Hok Hv), (view_accepts_uni O defs start HR HL d' Hwf' Hok' Hv').
  split; intros (root & Hr & HM).
  - destruct (proj1 (HE _) (ex_intro _ root (conj Hr eq_refl))) as (root' & Hr' & E). exists root'. split; [exact Hr' | rewrite E; exact HM].
  - destruct (proj2 (HE _) (ex_intro _ root (conj Hr eq_refl))) as (root' & Hr' & E). exists root'. split; [exact Hr' | rewrite E; exact HM].
Qed.
Lemma scope_reading d root : doc_reads d -> Document d root -> ReadsAs d root.
Proof. intros H1 H2. destruct (document_raw d root H1 H2) as (raw & Hc & Hm & _). exists raw. split; [apply reading_cview; exact Hc | exact Hm]. Qed.
Lemma whole_reading d root : doc_scope d -> Document d root -> Reading d root.
Proof. intros H1 H2. apply reading_cview. apply document_cview; assumption. Qed.

(** ** Small documents *)
Section SmallDocs.
Variable O : oracles.
Variable defs : list mpat.
Variable l : str.
Notation root_el p := (MElement (NNamed [] l) p).
Definition el1 (a : list (str * str * str)) (sc : bool) : xdoc := XDoc [] (XElem [] l a sc []) [].
Lemma el1_wf a sc : doc_wf (el1 a sc).
Proof. unfold doc_wf; cbn; repeat split; constructor. Qed.
(** any value, taken literally *)
Lemma literal_value nc p x v sc : rng_schema defs (root_el (MAttribute nc p)) -> in_limits defs (root_el (MAttribute nc p)) ->
  ordinary_name x -> (uses_lists defs p = true -> plain v) ->
  ~ overflows O defs (root_el (MAttribute nc p)) (doc_tokens (el1 [([], x, v)] sc)) ->
  (accepts O defs (root_el (MAttribute nc p)) (doc_tokens (el1 [([], x, v)] sc)) <->
   in_class nc (QName None x) /\ (blank v /\ M O defs true [] [] p \/ M O defs true [] [Txt v] p)).
Proof.
  intros HR HL Hx Hv Ho.
  assert (En : is_nsdecl ([], x, v) = false).
  { unfold is_nsdecl. change xmlns with (lit "xmlns"%string). rewrite (proj2 (str_eqb_neq x (lit "xmlns"%string)) Hx). reflexivity. }
  assert (Hrd : Reading (el1 [([], x, v)] sc) (Elm (QName None l) [Attr (QName None x) v] [])).
  { apply reading_cview. unfold el1; cbn [d_root d_prolog]. rewrite cview_elem. cbn [try_lookup_ns cviews plain_atts filter]. rewrite En. cbn [negb resolve_attrs]. reflexivity. }
  assert (Hok : forall root, Reading (el1 [([], x, v)] sc) root -> content_fits defs (root_el (MAttribute nc p)) root).
  { intros root H. rewrite (reading_fun _ _ _ H Hrd). split; [intros q []|]. intros E. cbn. repeat constructor. exact (Hv E). }
  rewrite (view_accepts O defs _ HR HL _ (el1_wf _ _) Hok Ho). split.
  - intros (root & Hr & H). rewrite (reading_fun _ _ _ Hr Hrd) in H. cbn [merged map joined] in H. apply M_elem_inv in H as (_ & _ & H). inversion H as [? ? ? Hm| |? ? Hf]; subst; [|discriminate Hf].
    inversion Hm as [| | | | | | | | | | | |? ? ? Hc Hw| | | | | |]; subst. split; [exact Hc|]. apply W_one in Hw. cbn in Hw.
    destruct Hw as [[H1 H2]|H2]; [left; split; [exact H1|] | right]; (apply M_flags; [|exact H2]); [constructor | apply noelem_texts].
  - intros [Hc H]. eexists; split; [exact Hrd|]. cbn [merged map joined]. change [Elm (QName None l) [Attr (QName None x) v] []] with ([] ++ Elm (QName None l) [Attr (QName None x) v] [] :: []).
    apply M_element; [cbn; auto | split; [intros [] | exact I] | | left; reflexivity | left; reflexivity].
    apply W_1, M_attribute; [exact Hc|]. apply W_one. cbn.
    destruct H as [[H1 H2]|H2]; [left; split; [exact H1|] | right]; (apply M_flags; [|exact H2]); [constructor | apply noelem_texts].
Qed.
(** the same, whatever the white space *)
Lemma literal_value_uni nc p x v sc : rng_schema defs (root_el (MAttribute nc p)) -> in_limits defs (root_el (MAttribute nc p)) ->
  ordinary_name x ->
  ~ overflows O defs (root_el (MAttribute nc p)) (doc_tokens (el1 [([], x, v)] sc)) ->
  (accepts O defs (root_el (MAttribute nc p)) (doc_tokens (el1 [([], x, v)] sc)) <->
   in_class nc (QName None x) /\ (blank v /\ Mg is_uni_ws O defs true [] [] p \/ Mg is_uni_ws O defs true [] [Txt v] p)).
Proof.
  intros HR HL Hx Ho.
  assert (En : is_nsdecl ([], x, v) = false).
  { unfold is_nsdecl. change xmlns with (lit "xmlns"%string). rewrite (proj2 (str_eqb_neq x (lit "xmlns"%string)) Hx). reflexivity. }
  assert (Hrd : Reading (el1 [([], x, v)] sc) (Elm (QName None l) [Attr (QName None x) v] [])).
  { apply reading_cview. unfold el1; cbn [d_root d_prolog]. rewrite cview_elem. cbn [try_lookup_ns cviews plain_atts filter]. rewrite En. cbn [negb resolve_attrs]. reflexivity. }
  assert (Hok : forall root, Reading (el1 [([], x, v)] sc) root -> pieces_fit defs (root_el (MAttribute nc p)) root).
  { intros root H. rewrite (reading_fun _ _ _ H Hrd). intros q []. }
  rewrite (view_accepts_uni O defs _ HR HL _ (el1_wf _ _) Hok Ho). split.
  - intros (root & Hr & H). rewrite (reading_fun _ _ _ Hr Hrd) in H. cbn [merged map joined] in H. apply M_elem_inv in H as (_ & _ & H). inversion H as [? ? ? Hm| |? ? Hf]; subst; [|discriminate Hf].
    inversion Hm as [| | | | | | | | | | | |? ? ? Hc Hw| | | | | |]; subst. split; [exact Hc|]. apply W_one in Hw. cbn in Hw.
    destruct Hw as [[H1 H2]|H2]; [left; split; [exact H1|] | right]; (apply M_flags; [|exact H2]); [constructor | apply noelem_texts].
  - intros [Hc H]. eexists; split; [exact Hrd|]. cbn [merged map joined]. change [Elm (QName None l) [Attr (QName None x) v] []] with ([] ++ Elm (QName None l) [Attr (QName None x) v] [] :: []).
    apply M_element; [cbn; auto | split; [intros [] | exact I] | | left; reflexivity | left; reflexivity].
    apply W_1, M_attribute; [exact Hc|]. apply W_one. cbn.
    destruct H as [[H1 H2]|H2]; [left; split; [exact H1|] | right]; (apply M_flags; [|exact H2]); [constructor | apply noelem_texts].
Qed.
(** an empty element is accepted iff its content pattern matches nothing at all *)
Lemma empty_accepts p sc : rng_schema defs (root_el p) -> in_limits defs (root_el p) ->
  ~ overflows O defs (root_el p) (doc_tokens (el1 [] sc)) ->
  (accepts O defs (root_el p) (doc_tokens (el1 [] sc)) <-> M O defs true [] [] p).
Proof.
  intros HR HL Ho.
  assert (Hrd : Reading (el1 [] sc) (Elm (QName None l) [] [])) by (apply reading_cview; reflexivity).
  assert (Hok : forall root, Reading (el1 [] sc) root -> content_fits defs (root_el p) root).
  { intros root H. rewrite (reading_fun _ _ _ H Hrd). split; [intros q []|]. cbn. repeat constructor. }
  rewrite (view_accepts O defs _ HR HL _ (el1_wf _ _) Hok Ho). split.
  - intros (root & Hr & H). rewrite (reading_fun _ _ _ Hr Hrd) in H. cbn [merged map joined] in H. apply M_elem_inv in H as (_ & _ & H). inversion H as [? ? ? Hm| |? ? Hf]; subst; [|discriminate Hf].
    apply M_flags; [constructor | exact Hm].
  - intros H. eexists; split; [exact Hrd|]. cbn [merged map joined]. change [Elm (QName None l) [] []] with ([] ++ Elm (QName None l) [] [] :: []).
    apply M_element; [cbn; auto | split; [intros [] | exact I] | | left; reflexivity | left; reflexivity]. apply W_1. apply M_flags; [constructor | exact H].
Qed.
End SmallDocs.
