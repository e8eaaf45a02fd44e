(** * SchemaProgress: the compiler has no reason to refuse a correct schema (C59). *)
From Coq Require Import String.
From Verif Require Import Base Datatype Facets Store Lang Compile Syntax SchemaCompile Spec SourceSpec SourceScope SourceTr SourceSem SourceCompile SchemaSpec SchemaMain SchemaVisit SchemaTerm SchemaGood.
From Verif Require Main SchemaTermExt.

(** [safe x Q]: no error, no panic; a result satisfies [Q] *)
Definition safe {A} (x : fres rerror A) (Q : A -> Prop) : Prop :=
  match x with Ok (inl a) => Q a | OutOfFuel => True | _ => False end.
Lemma safe_ok {A} (x : fres rerror A) a (Q : A -> Prop) : x = fok a -> Q a -> safe x Q.
Proof. intros -> H. exact H. Qed.
Lemma safe_impl {A} (x : fres rerror A) (Q Q' : A -> Prop) : safe x Q -> (forall a, x = fok a -> Q a -> Q' a) -> safe x Q'.
Proof. destruct x as [[a|e]|p|]; cbn; intros H K; auto. Qed.
Lemma safe_bind {A B} (m : CM A) (f : A -> CM B) st Q1 (Q : B * cst -> Prop) : safe (m st) Q1 ->
  (forall a st', m st = fok (a, st') -> Q1 (a, st') -> safe (f a st') Q) -> safe (cbind m f st) Q.
Proof. unfold cbind. destruct (m st) as [[[a st']|e]|p|]; cbn; intros H K; try contradiction; auto. Qed.
Lemma safe_step {A B} (m : CM A) (f : A -> CM B) st a st' (Q : B * cst -> Prop) : m st = fok (a, st') -> safe (f a st') Q -> safe (cbind m f st) Q.
Proof. unfold cbind. intros ->. auto. Qed.
Lemma safe_cmap {A} g (m : CM A) st Q : safe (m st) Q -> safe (cmap_err g m st) Q.
Proof. unfold cmap_err. destruct (m st) as [[a|e]|p|]; cbn; auto. Qed.

(** ** references that will be found *)
Definition good (st : cst) (r : nat) : Prop := exists t n, look st t n = Some r /\ (n = lit "start" -> t = 0).
(** the tables are maps *)
Definition keyed (st : cst) : Prop := forall t, NoDup (map fst (nth t (tables st) [])).
Lemma keyed_append st tbl id x cs os lo : keyed st -> look st tbl id = None -> keyed (Cst cs (upd tbl (nth tbl (tables st) [] ++ [(id, x)]) (tables st)) os lo).
Proof.
  intros K E t. cbn [tables]. destruct (Nat.eq_dec tbl t) as [->|Hn]; [|rewrite nth_upd_other by exact Hn; apply K].
  destruct (Nat.lt_ge_cases t (List.length (tables st))) as [Hl|Hl].
  - rewrite nth_upd_same by exact Hl. rewrite map_app. cbn.  specialize (K t). unfold look in E. revert K E.
    induction (nth t (tables st) []) as [|[k v] l IH]; cbn; intros K E; [constructor; [intros [] | constructor]|]. inversion K; subst.
    destruct (str_eqb k id) eqn:Ek; [discriminate E|]. constructor; [|apply IH; assumption]. rewrite in_app_iff. intros [Hi|[Hi|[]]]; [auto|]. subst k. rewrite str_eqb_refl in Ek. discriminate Ek.
  - rewrite nth_overflow; [constructor | rewrite length_upd; exact Hl].
Qed.
Lemma keyed_same st st' : tables st' = tables st -> keyed st -> keyed st'.
Proof. intros E K t. rewrite E. apply K. Qed.
Definition cellrefs (st : cst) : Prop := keyed st /\ forall r R, snd (nth r (cells st) ([], None)) = Some R -> refs_in (good st) (rule_pattern R).
Definition closed (k : nat) (st : cst) : Prop := forall t n r, k <= t -> look st t n = Some r -> n = lit "start" \/ content st t n <> None.
Definition names2 := nat -> str -> Prop.
Definition Step (c : ctx) (N : names2) (ns : list str) (st st' : cst) : Prop :=
  (forall t n r, t < List.length (tables st) -> look st' t n = Some r -> look st t n = Some r \/ (exists k, nth_error (tabs c) k = Some t /\ N k n) \/ (t = owner c /\ In n ns)) /\
  closed (List.length (tables st)) st' /\ cellrefs st'.
Lemma good_ext own st st' r : ext own st st' -> good st r -> good st' r.
Proof. intros (_ & H & _) (t & n & K1 & K2). exists t, n. auto. Qed.
Lemma refs_ext own st st' X : ext own st st' -> refs_in (good st) X -> refs_in (good st') X.
Proof. intros H K r Hr. eapply good_ext; [exact H | apply K, Hr]. Qed.
Lemma tabs_nth st c k t : tabs_in st c -> nth_error (tabs c) k = Some t -> t < List.length (tables st).
Proof. intros H K. apply H. eapply nth_error_In; exact K. Qed.
Lemma Step_same c N ns st st' : same_refs st st' -> cellrefs st -> Step c N ns st st'.
Proof.
  intros H K. split; [|split].
  - intros t n r _ Hl. rewrite (same_refs_look _ _ H) in Hl. auto.
  - intros t n r Ht Hl. rewrite (same_refs_look _ _ H) in Hl. apply look_bound in Hl. lia.
  - split; [eapply keyed_same; [apply H | apply K]|]. intros r R Hr. destruct H as [H1 H2]. rewrite H1 in Hr. apply K in Hr. intros x Hx. destruct (Hr x Hx) as (t & n & L1 & L2). exists t, n. unfold look. rewrite H2. auto.
Qed.
Lemma Step_mono c (N N' : names2) ns ns' st st' : (forall k n, N k n -> N' k n) -> incl ns ns' -> Step c N ns st st' -> Step c N' ns' st st'.
Proof.
  intros HN Hn (A1 & A2). split; [|exact A2]. intros t n r Ht Hl. destruct (A1 t n r Ht Hl) as [K|[(k & K1 & K2)|[K1 K2]]]; [auto | right; left; eauto | right; right; auto].
Qed.
Lemma Step_ctx c c' N ns st st' : tabs c' = tabs c -> Step c N ns st st' -> Step c' N ns st st'.
Proof. intros E H. unfold Step, owner in *. rewrite E. exact H. Qed.
Lemma Step_trans c (N1 N2 : names2) ns1 ns2 st st1 st2 : tabs_in st c -> ext [owner c] st st1 -> ext [owner c] st1 st2 ->
  Step c N1 ns1 st st1 -> Step c N2 ns2 st1 st2 -> Step c (fun k n => N1 k n \/ N2 k n) (ns1 ++ ns2) st st2.
Proof.
  intros HT E1 E2 (A1 & A2 & A3) (B1 & B2 & B3). split; [|split; [|exact B3]].
  - intros t n r Ht Hl. destruct E1 as (L1 & _). destruct (B1 t n r ltac:(lia) Hl) as [K|[(k & K1 & K2)|[K1 K2]]].
    + destruct (A1 t n r Ht K) as [K'|[(k & K1 & K2)|[K1 K2]]]; [auto | right; left; eauto | right; right; rewrite in_app_iff; auto].
    + right; left; eauto.
    + right; right; rewrite in_app_iff; auto.
  - intros t n r Ht Hl. destruct (Nat.lt_ge_cases t (List.length (tables st1))) as [Hlt|Hge]; [|eapply B2; eassumption].
    assert (Ho : t <> owner c) by (intros ->; pose proof (owner_in _ _ HT); lia).
    destruct (B1 t n r Hlt Hl) as [K|[(k & K1 & K2)|[K1 K2]]].
    + destruct (A2 t n r Ht K) as [K'|K']; [left; exact K'|]. right. destruct E2 as (_ & _ & E2). rewrite E2; [exact K' | exact Hlt | intros [Hx|[]]; congruence].
    + apply (tabs_nth st) in K1; [lia | exact HT].
    + congruence.
Qed.
Definition EP (c : ctx) (N : names2) (st : cst) (X : mpat) (st' : cst) : Prop := Step c N [] st st' /\ refs_in (good st') X.

(** ** acquiring a reference *)
Lemma acquire_in_exact tbl id st : tbl < List.length (tables st) -> exists r st', acquire_in tbl id st = fok (r, st') /\
  (forall t n, look st' t n = match look st t n with Some r => Some r | None => if Nat.eqb t tbl && str_eqb id n then Some r else None end) /\
  look st' tbl id = Some r /\ (forall x R, snd (nth x (cells st') ([], None)) = Some R -> snd (nth x (cells st) ([], None)) = Some R).
Proof.
  intros Hb. unfold acquire_in. fold (look st tbl id). destruct (look st tbl id) as [r|] eqn:E.
  - exists r, st. split; [reflexivity|]. split; [|split; [exact E | auto]]. intros t n. destruct (look st t n) eqn:E'; [reflexivity|].
    destruct (Nat.eqb_spec t tbl) as [->|]; [|reflexivity]. destruct (str_eqb id n) eqn:Es; [|reflexivity]. apply str_eqb_eq in Es. congruence.
  - eexists _, _. split; [reflexivity|].
    assert (HL := look_append st tbl id (List.length (cells st))). split; [intros t n; apply HL; exact Hb|]. split.
    + rewrite HL by exact Hb. rewrite E, Nat.eqb_refl, str_eqb_refl. reflexivity.
    + cbn [cells]. intros x R H. destruct (Nat.lt_ge_cases x (List.length (cells st))) as [Hx|Hx]; [rewrite app_nth1 in H by exact Hx; exact H|].
      rewrite app_nth2 in H by exact Hx. destruct (x - _) as [|[|?]]; discriminate H.
Qed.
Lemma acquire_EP c k id st : wf st -> tabs_in st c -> cellrefs st -> forall t, nth_error (tabs c) k = Some t -> (id = lit "start" -> t = 0) ->
  safe (acquire_in t id st) (fun r => EP c (fun k' n => k' = k /\ n = id) st (MRef (fst r)) (snd r)).
Proof.
  intros W HT HR t Hk Hs. pose proof (tabs_nth _ _ _ _ HT Hk) as Hb. destruct (acquire_in_exact t id st Hb) as (r & st' & E & HL & Hr & HC).
  destruct (acquire_in_ok _ _ _ _ _ W Hb E) as (W' & HE & _). eapply safe_ok; [exact E|]. cbn [fst snd].
  assert (El : List.length (tables st') = List.length (tables st)).
  { unfold acquire_in in E. destruct (assoc _ _); apply fok_inj in E; destruct E as [_ <-]; [reflexivity|]. cbn. apply length_upd. }
  split; [split; [|split]|].
  - intros t' n r' _ Hl. rewrite HL in Hl. destruct (look st t' n); [left; exact Hl|]. destruct (Nat.eqb_spec t' t) as [->|]; [|discriminate Hl].
    destruct (str_eqb id n) eqn:Es; [|discriminate Hl]. apply str_eqb_eq in Es. subst n. right; left; eauto.
  - intros t' n r' Ht Hl. apply look_bound in Hl. lia.
  - split; [|intros x R Hx; eapply refs_ext; [exact HE | apply (proj2 HR x), HC, Hx]].
    unfold acquire_in in E. fold (look st t id) in E. destruct (look st t id) eqn:E0; apply fok_inj in E; destruct E as [_ <-]; [apply HR | apply keyed_append; [apply HR | exact E0]].
  - intros x [<-|[]]. exists t, id. auto.
Qed.

(** ** contexts *)
Fixpoint outer_self (c : ctx) : option str :=
  match c with XRoot _ _ _ _ => None | XGrammar p _ => within p | XInclude p _ _ _ _ | XOverrides p | XDefine p _ | XElement p | XAttribute p => outer_self p end.
Lemma check_rec_safe c i st : within c <> Some i -> check_ref_recursion c i st = fok (tt, st).
Proof.
  induction c; cbn; intros H; try reflexivity; auto. destruct (str_eqb id i) eqn:E; [|reflexivity]. apply str_eqb_eq in E. congruence.
Qed.
Lemma acquire_impl_eq c i st : acquire_ref_impl c i st = acquire_in (owner c) i st.
Proof. induction c; cbn [acquire_ref_impl]; try reflexivity; exact IHc. Qed.
Lemma acquire_parent_eq c i st t : nth_error (tabs c) 1 = Some t -> outer_self c <> Some i -> acquire_parent_ref c i st = acquire_in t i st.
Proof.
  induction c; cbn [tabs outer_self acquire_parent_ref]; intros Ht H; try (apply IHc; assumption); [discriminate Ht|].
  cbn in Ht. rewrite tabs_owner in Ht. injection Ht as <-. unfold acquire_ref, cbind. rewrite check_rec_safe by exact H. cbn. apply acquire_impl_eq.
Qed.
Definition NamesOK (c : ctx) (N : names2) : Prop :=
  forall k n, N k n -> (exists t, nth_error (tabs c) k = Some t /\ (n = lit "start" -> t = 0)) /\ (k = 1 -> outer_self c <> Some n).
Lemma NamesOK_sub c c' (N N' : names2) : tabs c' = tabs c -> outer_self c' = outer_self c -> (forall k n, N' k n -> N k n) -> NamesOK c N -> NamesOK c' N'.
Proof. intros E1 E2 HN H k n K. rewrite E1, E2. apply H, HN, K. Qed.
Definition sees (c : ctx) (ds : list decl) (ov : bool) : Prop := forall p, known ds ov p -> namespace_uri c p <> None.

Lemma nameclass_safe c ds ov el n st : sees c ds ov -> nc_fine ds ov n -> exists n', compile_nameclass c el n st = fok (n', st).
Proof.
  intros HS. assert (HP : forall p, known ds ov p -> exists u, namespace_uri_for_prefix c p st = fok (u, st)).
  { intros p Hp. unfold namespace_uri_for_prefix. specialize (HS p Hp). destruct (namespace_uri c p) as [u|]; [exists u; reflexivity | contradiction]. }
  induction n as [nm|nm ex IH|ex IH|a IHa b IHb|a IHa] using snc_ind'; cbn [nc_fine compile_nameclass]; intros H.
  - destruct nm as [i|p l|u l]; try (eexists; reflexivity). destruct (HP p H) as [u E]. unfold cbind. rewrite E. eexists; reflexivity.
  - destruct H as [H1 H2].
    assert (HU : exists u, (match nm with NsUri u => cret (lit_value u) | NsPrefix p => namespace_uri_for_prefix c p end) st = fok (u, st)) by (destruct nm as [p|u]; [apply HP, H1 | eexists; reflexivity]).
    destruct HU as [u HU]. destruct ex as [x|].
    + destruct (IH H2) as [n' E]. unfold cbind at 1 2. rewrite E. cbn. unfold cbind. rewrite HU. eexists; reflexivity.
    + unfold cbind at 1. cbn. unfold cbind. rewrite HU. eexists; reflexivity.
  - destruct ex as [x|]; [|eexists; reflexivity]. destruct (IH H) as [n' E]. unfold cbind. rewrite E. eexists; reflexivity.
  - destruct H as [H1 H2]. destruct (IHa H1) as [a' E1]. destruct (IHb H2) as [b' E2]. unfold cbind. rewrite E1. cbn. rewrite E2. eexists; reflexivity.
  - exact (IHa H).
Qed.
Lemma dtname_safe c e n st : agrees c e -> dtname_ok (fe_decls e) n -> exists d, compile_dtname c n st = fok (d, st) /\ denotes_dt e n d.
Proof.
  intros (_ & _ & _ & _ & _ & A) H. destruct n as [| |p l|u l]; cbn [compile_dtname]; try (eexists; split; [reflexivity | constructor]).
  destruct H as [u Hu]. exists (DnCName u l). split; [|constructor; exact Hu]. unfold cbind, try_datatype_uri. rewrite (A _ _ Hu). reflexivity.
Qed.
Lemma lift_safe {A} (x : fres dt_error A) a st : x = Ok (inl a) -> lift_dt x st = fok (a, st).
Proof. intros ->. reflexivity. Qed.

(** ** declarations *)
Lemma declare_ns_safe c p u st : declares c -> exists ns, declare_namespace c p u st = fok (with_decls c ns (own_dt c), st) /\
  assoc p ns <> None /\ forall q, assoc q (own_ns c) <> None -> assoc q ns <> None.
Proof.
  intros D. destruct c; destruct D; cbn [declare_namespace own_ns own_dt with_decls]; (destruct (assoc p ns) eqn:E;
    [exists ns; split; [reflexivity|]; split; [congruence | auto] |
     exists (ns ++ [(p, u)]); split; [reflexivity|]; split; [rewrite assoc_app, E, assoc_one, str_eqb_refl; discriminate | intros q Hq; rewrite assoc_app; destruct (assoc q ns); [discriminate | contradiction]]]).
Qed.
Lemma assoc_none_in {A} p (l : list (str * A)) : ~ In p (map fst l) -> assoc p l = None.
Proof.
  induction l as [|[k v] l IH]; intros H; [reflexivity|]. cbn. destruct (str_eqb k p) eqn:E; [apply str_eqb_eq in E; subst; exfalso; apply H; left; reflexivity|].
  apply IH. intros K; apply H; right; exact K.
Qed.
Lemma declare_dt_safe c p u st : declares c -> ~ In p (map fst (own_dt c)) -> declare_datatype c p u st = fok (with_decls c (own_ns c) (own_dt c ++ [(p, u)]), st).
Proof. intros D H. apply assoc_none_in in H. destruct c; destruct D; cbn [declare_datatype own_ns own_dt with_decls] in *; rewrite H; reflexivity. Qed.
Lemma declarations_safe l : forall c st, declares c -> (forall p, ~ In (DNamespace p UInherit) l) -> (forall p, ~ In (DDefault p UInherit) l) ->
  NoDup (map fst (own_dt c) ++ dt_prefixes l) ->
  exists ns d, compile_declarations c l st = fok (with_decls c ns d, st) /\ (forall q, assoc q (own_ns c) <> None -> assoc q ns <> None) /\
    (forall p u, In (DNamespace p (UUri u)) l \/ In (DDefault (Some p) (UUri u)) l -> assoc p ns <> None).
Proof.
  induction l as [|d l IH]; intros c st D H1 H2 H3; cbn [compile_declarations].
  - exists (own_ns c), (own_dt c). rewrite with_self by exact D. split; [reflexivity|]. split; [auto|]. intros p u [[]|[]].
  - assert (H1' : forall p, ~ In (DNamespace p UInherit) l) by (intros p K; apply (H1 p); right; exact K).
    assert (H2' : forall p, ~ In (DDefault p UInherit) l) by (intros p K; apply (H2 p); right; exact K).
    assert (HNS : forall p u, declares c -> map fst (own_dt c) ++ dt_prefixes l = map fst (own_dt c) ++ dt_prefixes (d :: l) ->
      exists ns dd, (do c' <- declare_namespace c p u; compile_declarations c' l) st = fok (with_decls c ns dd, st) /\ assoc p ns <> None /\ (forall q, assoc q (own_ns c) <> None -> assoc q ns <> None) /\
        (forall p u, In (DNamespace p (UUri u)) l \/ In (DDefault (Some p) (UUri u)) l -> assoc p ns <> None)).
    { intros p u _ Ed. destruct (declare_ns_safe c p u st D) as (ns & E & K1 & K2). unfold cbind. rewrite E. cbn.
      destruct (IH (with_decls c ns (own_dt c)) st) as (ns2 & d2 & E2 & L1 & L2); [apply with_declares; exact D | exact H1' | exact H2' | rewrite own_dt_with by exact D; rewrite Ed; exact H3|].
      rewrite own_ns_with in L1 by exact D. rewrite E2, with_twice. exists ns2, d2.
      split; [reflexivity|]. split; [apply L1; exact K1|]. split; [intros q Hq; apply L1, K2, Hq | exact L2]. }
    destruct d as [p u|p u|p u]; cbn [compile_declaration].
    + destruct u as [|u]; [exfalso; eapply H1; left; reflexivity|]. destruct (HNS p (lit_value u) D eq_refl) as (ns & dd & E & K1 & K2 & K3). exists ns, dd.
      split; [exact E|]. split; [exact K2|]. intros q v [[K|K]|[K|K]]; try discriminate K; eauto. injection K as -> _. exact K1.
    + destruct u as [|u]; [exfalso; eapply H2; left; reflexivity|]. destruct p as [p|].
      * destruct (HNS p (lit_value u) D eq_refl) as (ns & dd & E & K1 & K2 & K3). exists ns, dd.
        split; [exact E|]. split; [exact K2|]. intros q v [[K|K]|[K|K]]; try discriminate K; eauto. injection K as -> _. exact K1.
      * destruct (IH c st D H1' H2' H3) as (ns & dd & E & K2 & K3). exists ns, dd. split; [exact E|]. split; [exact K2|]. intros q v [[K|K]|[K|K]]; try discriminate K; eauto.
    + cbn [dt_prefixes flat_map app] in H3. pose proof H3 as H3'. apply NoDup_remove_2 in H3'. unfold cbind. rewrite declare_dt_safe; [|exact D | intros K; apply H3', in_or_app; left; exact K]. cbn.
      destruct (IH (with_decls c (own_ns c) (own_dt c ++ [(p, lit_value u)])) st) as (ns2 & d2 & E2 & L1 & L2); [apply with_declares; exact D | exact H1' | exact H2' | |].
      { rewrite own_dt_with by exact D. rewrite map_app, <- app_assoc. exact H3. }
      rewrite own_ns_with in L1 by exact D. rewrite E2, with_twice. exists ns2, d2. split; [reflexivity|]. split; [exact L1|]. intros q v [[K|K]|[K|K]]; try discriminate K; eauto.
Qed.
Lemma declared_safe c ds st : declares c -> own_ns c = initial_ns -> own_dt c = initial_dts -> decls_fine ds ->
  exists ns d, compile_declarations c ds st = fok (with_decls c ns d, st) /\ sees (with_decls c ns d) ds false.
Proof.
  intros D En Ed (H1 & H2 & H3). destruct (declarations_safe ds c st D H1 H2) as (ns & d & E & K1 & K2); [rewrite Ed; exact H3|]. exists ns, d. split; [exact E|].
  intros p [u Hu]. assert (Hp : assoc p ns <> None).
  { destruct Hu as [|q l Hi|q l Hi]; [apply K1; rewrite En; discriminate | eapply K2; left; exact Hi | eapply K2; right; exact Hi]. }
  destruct c; destruct D; exact Hp.
Qed.

(** ** definitions *)
Definition omono (st st' : cst) : Prop := forall o n, o < List.length (ovrs st) -> assoc n (nth o (ovrs st) []) = Some true -> assoc n (nth o (ovrs st') []) = Some true.
Definition marks (c : ctx) (ns : list str) (st st' : cst) : Prop :=
  forall n o, In n ns -> find (fun o => has o st n) (chain c) = Some o -> assoc n (nth o (ovrs st') []) = Some true.
Definition DPost (c : ctx) (N : names2) (ns : list str) (st st' : cst) : Prop := Step c N ns st st' /\ omono st st' /\ marks c ns st st'.
Definition MB1 (st : cst) (t : nat) (n : str) (hs : list method) : Prop :=
  exists hx, merge_all n None (map hrule hx) = fok (content st t n) /\ combinable (map fst hx ++ hs).
Definition MB (c : ctx) (st : cst) (ds : list sdef) : Prop :=
  forall n, blocked st c n = false -> MB1 st (owner c) n (map d_how (defs_named n ds)).
Lemma combinable_prefix a b : combinable (a ++ b) -> combinable a.
Proof. unfold combinable. rewrite count_occ_app. intros [H1 H2]. split; [lia|]. intros [K1 K2]. apply H2. rewrite !in_app_iff. auto. Qed.
Lemma MB1_prefix st t n a b : MB1 st t n (a ++ b) -> MB1 st t n a.
Proof. intros (hx & H1 & H2). exists hx. split; [exact H1|]. rewrite app_assoc in H2. eapply combinable_prefix; exact H2. Qed.
Lemma MB1_merge st t n how X : MB1 st t n [how] -> exists R', merge_all n (content st t n) [rule_of how X] = fok (Some R') /\
  (forall r, In r (mrefs (rule_pattern R')) -> In r (mrefs X) \/ exists R, content st t n = Some R /\ In r (mrefs (rule_pattern R))).
Proof.
  intros (hx & H1 & H2). destruct (merge_iff n (hx ++ [(how, X)])) as [[_ K] _]. rewrite map_app in K. destruct (K H2) as [o Ho].
  rewrite map_app, merge_all_app, H1 in Ho. cbn [fbind fok rbind] in Ho.
  assert (HR : exists R', o = Some R').
  { cbn in Ho. unfold hrule in Ho. cbn [fst snd] in Ho. destruct (SchemaCompile.merge n _ _) as [[R'|?]|?|]; try discriminate Ho. injection Ho as <-. eexists; reflexivity. }
  destruct HR as [R' ->]. exists R'. split; [exact Ho|].
  assert (HC : combined (hx ++ [(how, X)]) R').
  { apply (merge_all_combined n (hx ++ [(how, X)]) (Some R')). rewrite map_app, merge_all_app, H1. exact Ho. }
  rewrite (combined_refs _ _ HC), flat_map_app. intros r Hr. apply in_app_iff in Hr. destruct Hr as [Hr|Hr]; [|left; cbn in Hr; rewrite app_nil_r in Hr; exact Hr].
  right. pose proof (merge_all_combined n hx _ H1) as HC0. destruct (content st t n) as [R|].
  - exists R. split; [reflexivity|]. rewrite (combined_refs _ _ HC0). exact Hr.
  - cbn in HC0. subst hx. destruct Hr.
Qed.
Lemma refs_rule how X : mrefs (rule_pattern (rule_of how X)) = mrefs X.
Proof. destruct how; cbn; rewrite ?app_nil_r; reflexivity. Qed.
Lemma define_in_safe tbl id how X st : wf st -> tbl < List.length (tables st) -> MB1 st tbl id [how] -> cellrefs st -> refs_in (good st) X ->
  exists st', define_in tbl id (rule_of how X) st = fok (tt, st') /\ List.length (tables st') = List.length (tables st) /\ ovrs st' = ovrs st /\
  (forall t n r, look st' t n = Some r -> look st t n = Some r \/ t = tbl /\ n = id) /\ cellrefs st'.
Proof.
  intros W Hb HM HR HX. destruct (MB1_merge _ _ _ _ X HM) as (R' & Em & Hrefs). destruct W as [W1 W2].
  assert (HE : exists st', define_in tbl id (rule_of how X) st = fok (tt, st')).
  { unfold define_in. fold (look st tbl id). destruct (look st tbl id) as [r|] eqn:E; [|eexists; reflexivity].
    assert (Ec : snd (nth r (cells st) (id, None)) = content st tbl id).
    { unfold content. rewrite E. rewrite (nth_indep (cells st) (id, None) ([], None)); [reflexivity | eapply W1; exact E]. }
    rewrite Ec. cbn in Em. destruct (SchemaCompile.merge id _ _) as [[R0|?]|?|]; try discriminate Em. eexists; reflexivity. }
  destruct HE as [st' E]. exists st'. split; [exact E|]. pose proof (define_in_ok _ _ _ _ _ (conj W1 W2) Hb E) as (_ & HE & Hv & _).
  unfold define_in in E. fold (look st tbl id) in E. destruct (look st tbl id) as [r|] eqn:El.
  - assert (Ec : snd (nth r (cells st) (id, None)) = content st tbl id).
    { unfold content. rewrite El. rewrite (nth_indep (cells st) (id, None) ([], None)); [reflexivity | eapply W1; exact El]. }
    rewrite Ec in E. cbn in Em. destruct (SchemaCompile.merge id _ _) as [[R0|?]|?|]; try discriminate Em. injection Em as ->. cbn in E. apply fok_inj in E. destruct E as [_ E].
    assert (Hl : forall t n, look st' t n = look st t n) by (intros; rewrite <- E; reflexivity).
    split; [rewrite <- E; reflexivity|]. split; [exact Hv|]. split; [intros t n r0 H; rewrite Hl in H; auto|].
    assert (Hcs : cells st' = upd r (id, Some R') (cells st)) by (rewrite <- E; reflexivity).
    split; [apply (keyed_same st); [rewrite <- E; reflexivity | exact (proj1 HR)]|]. destruct HR as [_ HR]. intros x R Hx. rewrite Hcs in Hx. destruct (Nat.eq_dec r x) as [<-|Hn].
    + rewrite nth_upd_same in Hx by (eapply W1; exact El). cbn in Hx. injection Hx as <-. intros y Hy. apply (good_ext _ _ _ _ HE). apply Hrefs in Hy.
      destruct Hy as [Hy|(R0 & K1 & K2)]; [apply HX; exact Hy|]. eapply (HR r); [|exact K2]. unfold content in K1. rewrite El in K1. exact K1.
    + rewrite nth_upd_other in Hx by exact Hn. eapply refs_ext; [exact HE | apply (HR x); exact Hx].
  - apply fok_inj in E. destruct E as [_ E].
    assert (Hl : forall t n, look st' t n = match look st t n with Some r => Some r | None => if Nat.eqb t tbl && str_eqb id n then Some (List.length (cells st)) else None end)
      by (intros; rewrite <- E; apply look_append; exact Hb).
    assert (Hcs : cells st' = cells st ++ [(id, Some (rule_of how X))]) by (rewrite <- E; reflexivity).
    split; [rewrite <- E; apply length_upd|]. split; [exact Hv|]. split.
    + intros t n r0 H. rewrite Hl in H. destruct (look st t n); [auto|]. destruct (Nat.eqb_spec t tbl) as [->|]; [|discriminate H]. destruct (str_eqb id n) eqn:Es; [|discriminate H].
      apply str_eqb_eq in Es. auto.
    + split; [rewrite <- E; apply keyed_append; [apply HR | exact El]|]. destruct HR as [_ HR]. intros x R Hx. rewrite Hcs in Hx. destruct (Nat.lt_ge_cases x (List.length (cells st))) as [Hlt|Hge].
      * rewrite app_nth1 in Hx by exact Hlt. eapply refs_ext; [exact HE | apply (HR x); exact Hx].
      * rewrite app_nth2 in Hx by exact Hge. destruct (x - _) as [|[|?]]; try discriminate Hx. cbn in Hx. injection Hx as <-. intros y Hy. rewrite refs_rule in Hy. apply (good_ext _ _ _ _ HE), HX, Hy.
Qed.
Lemma omono_same st st' : ovrs st' = ovrs st -> omono st st'.
Proof. intros E o n _ H. rewrite E. exact H. Qed.
Lemma define_safe c id how X : gctx c -> forall st, wf st -> tabs_in st c -> chain_in st c -> (blocked st c id = false -> MB1 st (owner c) id [how]) ->
  cellrefs st -> refs_in (good st) X ->
  safe (define c id (rule_of how X) st) (fun r => DPost c (fun _ _ => False) [id] st (snd r)).
Proof.
  assert (HIN : forall c t, owner c = t -> chain c = [] -> forall st, wf st -> t < List.length (tables st) -> MB1 st t id [how] -> cellrefs st -> refs_in (good st) X ->
    safe (define_in t id (rule_of how X) st) (fun r => DPost c (fun _ _ => False) [id] st (snd r))).
  { intros c0 t Ho Hch st W Hb HM HR HX. destruct (define_in_safe t id how X st W Hb HM HR HX) as (st' & E & L & V & Hl & HR'). eapply safe_ok; [exact E|]. cbn [snd].
    split; [split; [|split; [|exact HR']]|split; [apply omono_same; exact V | intros n o _ Hf; rewrite Hch in Hf; discriminate Hf]].
    - intros t' n r _ H. apply Hl in H. destruct H as [H|[-> ->]]; [auto|]. right; right. split; [auto | left; reflexivity].
    - intros t' n r Hge H. apply look_bound in H. lia. }
  induction c as [f t ns d|p IH f o ns d|p IH|p IH t|p IH i|p IH|p IH]; intros Hg st W HT HC HM HR HX; try destruct Hg; cbn [define].
  - apply HIN; try assumption; try reflexivity; [apply HT; left; reflexivity | apply HM; reflexivity].
  - eapply safe_step; [reflexivity|]. destruct (assoc id (nth o (ovrs st) [])) as [b|] eqn:Ea.
    + unfold mark_ovr. cbn [safe fok]. cbn [snd]. split; [apply Step_same; [split; reflexivity | exact HR]|]. assert (Ho : o < List.length (ovrs st)) by (apply HC; left; reflexivity). split.
      * intros o' n _ H. cbn [ovrs]. destruct (Nat.eq_dec o o') as [<-|Hne]; [|rewrite nth_upd_other by exact Hne; exact H].
        rewrite nth_upd_same by exact Ho. rewrite assoc_set, H. destruct (str_eqb id n); reflexivity.
      * intros n o' [<-|[]] Hf. cbn [chain find] in Hf. unfold has at 1 in Hf. rewrite Ea in Hf. injection Hf as <-. cbn [ovrs]. rewrite nth_upd_same by exact Ho. rewrite assoc_set, str_eqb_refl, Ea. reflexivity.
    + eapply safe_impl; [apply IH; try assumption|].
      * intros o' Ho'; apply HC; right; exact Ho'.
      * intros Hb. apply HM. unfold blocked in *. cbn [chain existsb]. rewrite Hb. unfold has. rewrite Ea. reflexivity.
      * intros [u st'] _ (K1 & K2 & K3). cbn [snd] in *. split; [exact K1|]. split; [exact K2|]. intros n o' [<-|[]] Hf. cbn [chain find] in Hf. unfold has at 1 in Hf. rewrite Ea in Hf.
        apply K3; [left; reflexivity | exact Hf].
  - apply HIN; try assumption; try reflexivity; [apply HT; left; reflexivity | apply HM; reflexivity].
Qed.

(** ** the main induction *)
Lemma MB_prefix c st a b : MB c st (a ++ b) -> MB c st a.
Proof. intros H n Hb. specialize (H n Hb). unfold defs_named in *. rewrite filter_app, map_app in H. eapply MB1_prefix; exact H. Qed.
Lemma MB_next c st st' dx ds : (forall n, merged n (content st (owner c) n) (if blocked st c n then [] else dx) = fok (content st' (owner c) n)) ->
  (forall n, blocked st' c n = blocked st c n) -> MB c st (map fst dx ++ ds) -> MB c st' ds.
Proof.
  intros HC HB H n Hb. rewrite HB in Hb. specialize (HC n). rewrite Hb in HC. destruct (H n Hb) as (hx & K1 & K2). exists (hx ++ hx_of n dx). split.
  - rewrite map_app, merge_all_app, K1. exact HC.
  - unfold defs_named in K2. rewrite filter_app, map_app in K2. fold (defs_named n (map fst dx)) in K2. fold (defs_named n ds) in K2.
    assert (Ex : map d_how (defs_named n (map fst dx)) = map fst (hx_of n dx)) by (unfold hx_of; rewrite map_map, defs_named_map, map_map; reflexivity).
    rewrite Ex in K2. rewrite map_app, <- app_assoc. exact K2.
Qed.
Lemma MB1_content st st' t n hs : content st' t n = content st t n -> MB1 st t n hs -> MB1 st' t n hs.
Proof. intros E (hx & H1 & H2). exists hx. rewrite E. auto. Qed.
Lemma omono_trans st1 st2 st3 : List.length (ovrs st1) <= List.length (ovrs st2) -> omono st1 st2 -> omono st2 st3 -> omono st1 st3.
Proof. intros L H K o n Ho Hn. apply K; [lia | apply H; assumption]. Qed.
Lemma omono_step st st' : ovr_step [] [] st st' -> omono st st'.
Proof. intros (_ & H & _) o n Ho Hn. rewrite H; [exact Hn | exact Ho | intros []]. Qed.
Lemma find_has c st st' n : (forall o, In o (chain c) -> has o st' n = has o st n) -> find (fun o => has o st' n) (chain c) = find (fun o => has o st n) (chain c).
Proof.
  induction (chain c) as [|o l IH]; intros H; [reflexivity|]. cbn. rewrite H by (left; reflexivity). destruct (has o st n); [reflexivity|]. apply IH. intros o' Ho'. apply H. right; exact Ho'.
Qed.
Lemma check_include_safe c f st : ~ In f (inc_files c) -> check_include c f st = fok (tt, st).
Proof.
  induction c; cbn; intros H; try reflexivity; auto. unfold path_eqb. destruct (path_eq_dec f file) as [->|]; [exfalso; apply H; left; reflexivity|]. apply IHc. intros K; apply H; right; exact K.
Qed.
Lemma gctx_attr c : gctx c -> parent_attribute c = false.
Proof. induction c; cbn; intros H; try reflexivity; try destruct H; auto. Qed.
Lemma find_true (l : list (str * bool)) : NoDup (map fst l) -> (forall n, In n (map fst l) -> assoc n l = Some true) -> find (fun '(_, b) => negb b) l = None.
Proof.
  induction l as [|[k b] l IH]; intros HN H; [reflexivity|]. cbn in HN. inversion HN as [|? ? Hk HN']; subst. pose proof (H k ltac:(left; reflexivity)) as Hb. cbn in Hb. rewrite str_eqb_refl in Hb. injection Hb as ->.
  cbn. apply IH; [exact HN'|]. intros n Hn. specialize (H n ltac:(right; exact Hn)). cbn in H. destruct (str_eqb k n) eqn:E; [|exact H]. apply str_eqb_eq in E. subst k. contradiction.
Qed.

Lemma assoc_mem {A} n (l : list (str * A)) x : In (n, x) l -> exists y, assoc n l = Some y.
Proof.
  induction l as [|[k v] l IH]; intros H; [destruct H|]. cbn. destruct (str_eqb k n) eqn:E; [eexists; reflexivity|]. destruct H as [H|H]; [|auto].
  injection H as -> ->. rewrite str_eqb_refl in E. discriminate E.
Qed.
Lemma assoc_nodup {A} n (l : list (str * A)) x : NoDup (map fst l) -> In (n, x) l -> assoc n l = Some x.
Proof.
  induction l as [|[k v] l IH]; intros HN H; [destruct H|]. inversion HN; subst. cbn. destruct H as [H|H].
  - injection H as -> ->. rewrite str_eqb_refl. reflexivity.
  - destruct (str_eqb k n) eqn:E; [|apply IH; assumption]. apply str_eqb_eq in E. subst k. exfalso. apply H2. apply in_map_iff. exists (n, x). auto.
Qed.

Section Main.
Variable O : oracles.
Variable C : coracles.
Variable fs : filesys.
Hypothesis Hfs : files_ok fs.
Definition IncOK (c : ctx) (f : path) (H : role -> literal -> Prop) : Prop :=
  forall r h f', H r h -> resolve f (lit_value h) = Some f' ->
    (forall s, fs f' = inl s -> role_fine O C fs true r f' s) /\ forall k f'', Trail fs k f' f'' -> ~ In f'' (inc_files c) /\ (forall j, ~ Trail fs (S j) f'' f'') /\
    forall s r' h' f3 s3, fs f'' = inl s -> mentioned r' h' s -> resolve f'' (lit_value h') = Some f3 -> fs f3 = inl s3 -> role_fine O C fs true r' f3 s3.
Lemma IncOK_sub c c' f (H H' : role -> literal -> Prop) : inc_files c' = inc_files c -> (forall r h, H' r h -> H r h) -> IncOK c f H -> IncOK c' f H'.
Proof. intros E HH K r h f' Hh Hr. rewrite E. eapply K; eauto. Qed.
Lemma IncOK_into c c' f (H H' : role -> literal -> Prop) r h f' s : IncOK c f H -> H r h -> resolve f (lit_value h) = Some f' -> fs f' = inl s ->
  (inc_files c' = inc_files c \/ inc_files c' = f' :: inc_files c) -> (forall r h, H' r h -> mentioned r h s) -> IncOK c' f' H'.
Proof.
  intros K Hh Hr Hs Hi HH r2 h2 f2 H2 R2. destruct (K r h f' Hh Hr) as [_ K1]. pose proof (K1 0 f' (Trail_0 fs f')) as (_ & L1 & L2). split; [intros s2 Hs2; eapply L2; eauto|].
  intros k f'' HT. assert (HO : Opens fs f' f2) by (exists s, r2, h2; auto). destruct (K1 (S k) f'' (Trail_S fs _ _ _ _ HO HT)) as (M1 & M2). split; [|exact M2].
  destruct Hi as [-> | ->]; [exact M1|]. intros [E|E]; [|exact (M1 E)]. subst f''. apply (L1 k). econstructor; eassumption.
Qed.
Lemma mentions_child r h p q : child q p -> mentions_in r h q -> mentions_in r h p.
Proof. destruct r; intros H K; econstructor; eassumption. Qed.
Lemma mentions_grammar r h l g : In g l -> mentions r h g -> mentions_in r h (SGrammar l).
Proof. destruct r; intros H K; econstructor; eassumption. Qed.
Lemma mentions_define r h n how p : mentions_in r h p -> mentions r h (GDefine n how p).
Proof. destruct r; intros H; constructor; assumption. Qed.
Lemma mentions_div r h l g : In g l -> mentions r h g -> mentions r h (GDiv l).
Proof. destruct r; intros H K; econstructor; eassumption. Qed.
Lemma mentions_override r h h' inh l n how p : In (IDefine n how p) l -> mentions_in r h p -> mentions r h (GInclude h' inh (Some l)).
Proof. destruct r; intros H K; econstructor; eassumption. Qed.
Lemma mentioned_contents r h s l g : file_contents s l -> In g l -> mentions r h g -> mentioned r h s.
Proof. intros Hc Hi Hm. destruct r, Hc; cbn in *; (econstructor; first [eassumption | econstructor; eassumption]). Qed.
Lemma mentioned_pattern r h ds p : mentions_in r h p -> mentioned r h (Schema ds (TPattern p)).
Proof. destruct r; intros H; constructor; exact H. Qed.
Lemma all_fine f ds ov l : (fix all (l : list gcontent) : Prop := match l with [] => True | g :: l' => content_fine O C fs true f ds ov g /\ all l' end) l <-> contents_fine O C fs true f ds ov l.
Proof. induction l as [|g l IH]; [reflexivity|]. cbn. rewrite IH. reflexivity. Qed.
Definition NamesL (f : path) (l : list gcontent) : names2 := fun k n => exists g, In g l /\ NamesC fs f k n g.
Definition IncL (l : list gcontent) (r : role) (h : literal) : Prop := exists g, In g l /\ mentions r h g.
Definition S_contents (cl : ctx -> list gcontent -> CM unit) (ov : bool) (l : list gcontent) : Prop := forall c e ds st,
  contents_ok fs (fe_path e) (fe_decls e) l -> gctx c -> agrees c e -> wf st -> tabs_in st c -> chain_in st c ->
  contents_fine O C fs true (fe_path e) (fe_decls e) ov l -> sees c (fe_decls e) ov -> NamesOK c (NamesL (fe_path e) l) -> IncOK c (fe_path e) (IncL l) ->
  cellrefs st -> Expand fs e l ds -> MB c st ds ->
  safe (cl c l st) (fun r => DPost c (NamesL (fe_path e) l) (names_of ds) st (snd r)).
Definition S_pattern (cp : ctx -> spat -> CM mpat) (p : spat) : Prop := forall c e ov st,
  pat_ok fs (fe_path e) (fe_decls e) p -> agrees c e -> wf st -> tabs_in st c ->
  fine O C fs true (fe_path e) (fe_decls e) ov (parent_attribute c) (within c) p -> sees c (fe_decls e) ov -> NamesOK c (fun k n => Names fs (fe_path e) k n p) ->
  IncOK c (fe_path e) (fun r h => mentions_in r h p) -> cellrefs st ->
  safe (cp c p st) (fun r => EP c (fun k n => Names fs (fe_path e) k n p) st (fst r) (snd r)).
Section Rec.
Variable rp : ctx -> spat -> CM mpat.
Variable ri : ctx -> list gcontent -> CM unit.
Hypothesis Hri : forall c e l st st', contents_ok fs (fe_path e) (fe_decls e) l -> gctx c -> agrees c e -> wf st -> tabs_in st c -> chain_in st c ->
  ri c l st = fok (tt, st') -> CP O C fs c e l st st'.
Hypothesis Hrp : forall c e p st X st', pat_ok fs (fe_path e) (fe_decls e) p -> agrees c e -> wf st -> tabs_in st c ->
  rp c p st = fok (X, st') -> PP O C fs c e p st X st'.
Hypothesis Hsafe : forall l, S_contents ri false l.
Hypothesis Hsafe_p : forall p, S_pattern rp p.
Notation compile_pattern := (compile_pattern O C fs rp ri).
Notation compile_content := (compile_content O C fs rp ri).
Notation compile_override := (compile_override O C fs rp ri).
Notation S_pat := (S_pattern compile_pattern).
Definition S_con (g : gcontent) : Prop := forall c e ov ds st,
  content_ok fs (fe_path e) (fe_decls e) g -> gctx c -> agrees c e -> wf st -> tabs_in st c -> chain_in st c ->
  content_fine O C fs true (fe_path e) (fe_decls e) ov g -> sees c (fe_decls e) ov -> NamesOK c (fun k n => NamesC fs (fe_path e) k n g) ->
  IncOK c (fe_path e) (fun r h => mentions r h g) -> cellrefs st -> Expand fs e [g] ds -> MB c st ds ->
  safe (compile_content c g st) (fun r => DPost c (fun k n => NamesC fs (fe_path e) k n g) (names_of ds) st (snd r)).
Definition NamesO (f : path) (i : icontent) : names2 := fun k n => exists m how p, i = IDefine m how p /\ Names fs f k n p.
Definition S_ovr (i : icontent) : Prop := forall q f o e h st,
  override_ok fs (fe_path e) (fe_decls e) i -> gctx q -> agrees q e -> wf st -> tabs_in st q ->
  o < List.length (ovrs st) -> (forall o', In o' (chain q) -> o' < o) ->
  override_fine O C fs true (fe_path e) (fe_decls e) h i -> resolve (fe_path e) (lit_value h) = Some f ->
  NamesOK q (NamesO (fe_path e) i) -> IncOK q (fe_path e) (fun r h => exists m how p, i = IDefine m how p /\ mentions_in r h p) ->
  NoDup (map fst (nth o (ovrs st) []) ++ names_of (overrides1 e i)) -> cellrefs st -> MB q st (overrides1 e i) ->
  safe (compile_override (XOverrides (XInclude q f o initial_ns initial_dts)) i st) (fun r => DPost q (NamesO (fe_path e) i) (names_of (overrides1 e i)) st (snd r)).

Lemma mainP p : P_pat O C fs rp ri p.
Proof. apply (main_ok O C fs Hfs rp ri Hri Hrp). Qed.
Lemma mainC g : P_con O C fs rp ri g.
Proof. apply (main_ok O C fs Hfs rp ri Hri Hrp). Qed.
Lemma mainO i : P_ovr O C fs rp ri i.
Proof. apply (main_ok O C fs Hfs rp ri Hri Hrp). Qed.

Lemma DPost_nil c N st : cellrefs st -> DPost c N [] st st.
Proof. intros H. split; [apply Step_same; [split; reflexivity | exact H]|]. split; [apply omono_same; reflexivity|]. intros n o []. Qed.
Lemma DPost_mono c (N N' : names2) ns ns' st st' : (forall k n, N k n -> N' k n) -> incl ns ns' -> incl ns' ns -> DPost c N ns st st' -> DPost c N' ns' st st'.
Proof. intros HN H1 H2 (A & B & D). split; [eapply Step_mono; eassumption|]. split; [exact B|]. intros n o Hn. apply D, H2, Hn. Qed.
Lemma DPost_trans c (N1 N2 : names2) ns1 ns2 st st1 st2 : tabs_in st c -> chain_in st c -> ext [owner c] st st1 -> ext [owner c] st1 st2 ->
  List.length (ovrs st) <= List.length (ovrs st1) -> (forall o n, In o (chain c) -> has o st1 n = has o st n) ->
  DPost c N1 ns1 st st1 -> DPost c N2 ns2 st1 st2 -> DPost c (fun k n => N1 k n \/ N2 k n) (ns1 ++ ns2) st st2.
Proof.
  intros HT HC E1 E2 L HH (A1 & A2 & A3) (B1 & B2 & B3). split; [eapply Step_trans; eassumption|]. split; [eapply omono_trans; eassumption|].
  intros n o Hn Hf. apply in_app_iff in Hn. destruct Hn as [Hn|Hn].
  - apply B2; [|apply (A3 n o Hn Hf)]. apply find_some in Hf. destruct Hf as [Hf _]. apply HC in Hf. lia.
  - apply (B3 n o Hn). rewrite (find_has c st st1); [exact Hf|]. intros o' Ho'. apply HH, Ho'.
Qed.
Lemma names_app a b : names_of (a ++ b) = names_of a ++ names_of b.
Proof. apply map_app. Qed.
Lemma contents_safe ov l : Forall S_con l -> S_contents (fun c => citer (compile_content c)) ov l.
Proof.
  induction 1 as [|g l Hg Hl IH]; intros c e ds st Hok HG HA W HT HC HF HS HN HI HR HE HM; cbn [citer].
  - inversion HE; subst. apply DPost_nil; exact HR.
  - destruct Hok as [Ho1 Ho2]. destruct HF as [HF1 HF2]. apply Expand_cons in HE. destruct HE as (d1 & d2 & E1 & E2 & ->).
    eapply safe_bind.
    + apply (Hg c e ov d1 st); try assumption.
      * eapply NamesOK_sub; [reflexivity | reflexivity | | exact HN]. intros k n K. exists g. split; [left; reflexivity | exact K].
      * eapply IncOK_sub; [reflexivity | | exact HI]. intros r h K. exists g. split; [left; reflexivity | exact K].
      * eapply MB_prefix; exact HM.
    + intros [] st1 H1 HP. cbn beta in HP. cbn [snd] in HP. apply (mainC g c e) in H1; try assumption. destruct H1 as (dx & Ed & (A1 & A2 & A3 & A4 & A5)). apply Ed in E1. subst d1.
      pose proof A3 as (A31 & _). assert (HH : forall o n, In o (chain c) -> has o st1 n = has o st n) by (intros o n Ho; eapply ovr_step_has; [exact A3 | apply HC; exact Ho]).
      eapply safe_impl.
      * apply (IH c e d2 st1); try assumption; [eapply tabs_in_ext; eassumption | eapply chain_in_step; eassumption | | | apply HP |].
        -- eapply NamesOK_sub; [reflexivity | reflexivity | | exact HN]. intros k n (g' & K1 & K2). exists g'. split; [right; exact K1 | exact K2].
        -- eapply IncOK_sub; [reflexivity | | exact HI]. intros r h (g' & K1 & K2). exists g'. split; [right; exact K1 | exact K2].
        -- eapply MB_next; [exact A5 | | exact HM]. intros n. eapply ovr_step_blocked; eassumption.
      * intros [[] st2] H2 HP2. cbn [snd] in *. apply (contents_iter O C fs rp ri l ltac:(apply Forall_forall; intros; apply mainC) c e) in H2; try assumption;
          [|eapply tabs_in_ext; eassumption | eapply chain_in_step; eassumption]. destruct H2 as (dx2 & Ed2 & (B1 & B2 & B3 & _)).
        rewrite names_app. eapply (DPost_mono c); [| apply incl_refl | apply incl_refl | eapply DPost_trans; [exact HT | exact HC | exact A2 | exact B2 | exact A31 | exact HH | exact HP | exact HP2]].
        intros k n [K|(g' & K1 & K2)]; [exists g; split; [left; reflexivity | exact K] | exists g'; split; [right; exact K1 | exact K2]].
Qed.
Lemma EP_cons c N N' st X st1 st2 : tabs_in st c -> ext [] st st1 -> ext [] st1 st2 -> Step c N [] st st1 -> Step c N' [] st1 st2 -> refs_in (good st1) X ->
  Step c (fun k n => N k n \/ N' k n) [] st st2 /\ refs_in (good st2) X.
Proof.
  intros HT E1 E2 A B HX. split; [|eapply refs_ext; eassumption]. eapply (Step_trans c N N' [] []); [exact HT | | | exact A | exact B]; (eapply ext_mono; [|eassumption]); intros x [].
Qed.
Lemma EP_sub c c' (N N' : names2) st X X' st' : tabs c' = tabs c -> (forall k n, N k n -> N' k n) -> incl (mrefs X') (mrefs X) -> EP c' N st X st' -> EP c N' st X' st'.
Proof.
  intros Ht HN HX [A B]. split; [eapply Step_mono; [exact HN | apply incl_refl | eapply Step_ctx; [symmetry; exact Ht | exact A]]|]. intros r Hr. apply B, HX, Hr.
Qed.
Lemma EP_pure c N st X : cellrefs st -> mrefs X = [] -> EP c N st X st.
Proof. intros H E. split; [apply Step_same; [split; reflexivity | exact H]|]. intros r Hr. rewrite E in Hr. destruct Hr. Qed.

Lemma define_con n how p : S_pat p -> S_con (GDefine n how p).
Proof.
  intros Hp c e ov ds st Hok HG HA W HT HC HF HS HN HI HR HE HM. cbn [SchemaCompile.compile_content].
  assert (Ed : ds = [SDef n how e p]) by (inversion HE; subst; match goal with K : Expand _ _ [] _ |- _ => inversion K; subst end; reflexivity). subst ds.
  eapply safe_bind.
  - apply (Hp (XDefine c n) e ov st); try assumption; [cbn [parent_attribute within]; rewrite gctx_attr by exact HG; exact HF | |].
    + eapply NamesOK_sub; [reflexivity | reflexivity | | exact HN]. intros k m K. constructor; exact K.
    + eapply IncOK_sub; [reflexivity | | exact HI]. intros r h K. apply mentions_define; exact K.
  - intros X st1 H1 [A B]. cbn [fst snd] in *. apply (mainP p (XDefine c n) e) in H1; try assumption. destruct H1 as (P1 & P2 & P3 & _).
    assert (HC1 : chain_in st1 c) by (eapply chain_in_step; eassumption). assert (HT1 : tabs_in st1 c) by (eapply tabs_in_ext; eassumption).
    eapply safe_impl.
    + apply define_safe; try assumption; [|exact (proj2 (proj2 A))]. intros Hb. rewrite (ovr_step_blocked _ _ _ _ c n P3 HC) in Hb. specialize (HM n Hb).
      unfold defs_named in HM. cbn [filter is_named d_name] in HM. unfold is_named in HM. cbn [d_name] in HM. rewrite str_eqb_refl in HM. cbn in HM.
      eapply MB1_content; [|exact HM]. destruct P2 as (_ & _ & P2). apply P2; [apply owner_in; exact HT | intros []].
    + intros [[] st2] H2 HP. cbn [snd] in *. apply define_ok in H2; try assumption. destruct H2 as (_ & D2 & _).
      eapply (DPost_mono c); [| apply incl_refl | apply incl_refl | eapply (DPost_trans c (fun k m => Names fs (fe_path e) k m p) (fun _ _ => False) [] [n] st st1 st2); try eassumption].
      * intros k m [K|[]]. constructor; exact K.
      * eapply ext_mono; [|exact P2]. intros x [].
      * apply P3.
      * intros o m Ho. eapply ovr_step_has; [exact P3 | apply HC; exact Ho].
      * split; [eapply Step_ctx; [|exact A]; reflexivity|]. split; [apply omono_step; exact P3|]. intros m o [].
Qed.
Lemma override_define n how p : S_pat p -> S_ovr (IDefine n how p).
Proof.
  intros Hp q f o e h st Hok HG HA W HT Ho Hch [HF HF2] Hr HN HI HD HR HM. cbn [SchemaCompile.compile_override overrides1 names_of map d_name] in *.
  set (inc := XInclude q f o initial_ns initial_dts). pose proof (agrees_overrides q e f o HA) as HAo. eapply safe_bind.
  - apply (Hp (XDefine (XOverrides inc) n) e true st); try assumption.
    + cbn [parent_attribute within inc]. rewrite gctx_attr by exact HG. exact HF.
    + intros x Hx. cbn in Hx. subst x. discriminate.
    + eapply NamesOK_sub; [reflexivity | reflexivity | | exact HN]. intros k m K. exists n, how, p. auto.
    + intros r h' f' Hh' Hr'. destruct (HI r h' f') as (I1 & I2); [exists n, how, p; auto | exact Hr'|]. split; [exact I1|]. intros k f'' Hc'. destruct (I2 k f'' Hc') as (I3 & I4). split; [|exact I4].
      intros [K|K]; [|exact (I3 K)]. cbn in K. subst f''. eapply HF2; eassumption.
  - intros X st1 H1 [A B]. cbn [fst snd] in *. apply (mainP p (XDefine (XOverrides inc) n) e) in H1; try assumption. destruct H1 as (P1 & P2 & P3 & _).
    pose proof P3 as (P30 & P31 & P32). cbn [define inc].
    assert (HO1 : nth o (ovrs st1) [] = nth o (ovrs st) []) by (apply P31; [exact Ho | intros []]).
    assert (Hnone : assoc n (nth o (ovrs st1) []) = None).
    { rewrite HO1. apply assoc_none_in. intros K. apply NoDup_remove_2 in HD. apply HD. apply in_app_iff. left; exact K. }
    eapply safe_step; [reflexivity|]. rewrite Hnone. eapply safe_step; [reflexivity|]. set (st2 := Cst _ _ _ _).
    assert (R : same_refs st1 st2) by (split; reflexivity).
    assert (V : ovrs st2 = upd o (nth o (ovrs st1) [] ++ [(n, false)]) (ovrs st1)) by reflexivity.
    assert (HT1 : tabs_in st1 q) by (eapply tabs_in_ext; eassumption). assert (HT2 : tabs_in st2 q) by (eapply tabs_in_ext; [apply (same_refs_ext []); exact R | exact HT1]).
    assert (L2 : List.length (ovrs st2) = List.length (ovrs st1)) by (rewrite V; apply length_upd).
    assert (HCq : chain_in st q) by (intros o' Ho'; apply Hch in Ho'; lia). assert (HC2 : chain_in st2 q) by (intros o' Ho'; apply Hch in Ho'; lia).
    assert (HH : forall o' m, In o' (chain q) -> has o' st2 m = has o' st m).
    { intros o' m Ho'. unfold has. rewrite V. rewrite nth_upd_other by (apply Hch in Ho'; lia). rewrite P31; [reflexivity | apply HCq; exact Ho' | intros []]. }
    assert (S02 : Step q (fun k m => Names fs (fe_path e) k m p) [] st st2).
    { eapply Step_mono; [| |eapply (Step_trans q (fun k m => Names fs (fe_path e) k m p) (fun _ _ => False) [] [] st st1 st2); [exact HT | | | |]].
      - intros k m [K|[]]; exact K.
      - apply incl_refl.
      - eapply ext_mono; [|exact P2]; intros x [].
      - apply same_refs_ext; exact R.
      - eapply Step_ctx; [|exact A]. reflexivity.
      - apply Step_same; [exact R | exact (proj2 (proj2 A))]. }
    eapply safe_impl.
    + apply (define_safe q n how X HG st2 (same_refs_wf _ _ R P1) HT2 HC2); [| exact (proj2 (proj2 S02)) | eapply refs_ext; [apply (same_refs_ext []); exact R | exact B]].
      intros Hb. assert (Hb' : blocked st q n = false).
      { rewrite <- Hb. unfold blocked. clear - HH. induction (chain q) as [|o' l IH]; [reflexivity|]. cbn. rewrite HH by (left; reflexivity). f_equal. apply IH. intros o1 m H1. apply HH. right; exact H1. }
      specialize (HM n Hb'). unfold defs_named in HM. cbn [filter] in HM. unfold is_named in HM. cbn [d_name] in HM. rewrite str_eqb_refl in HM. cbn in HM.
      eapply MB1_content; [|exact HM]. rewrite (same_refs_content _ _ R). destruct P2 as (_ & _ & P2). apply P2; [apply owner_in; exact HT | intros []].
    + intros [[] st3] H3 HP. cbn [snd] in *. apply (define_ok q n _ HG st2 st3 (same_refs_wf _ _ R P1) HT2 HC2) in H3. destruct H3 as (_ & D2 & _).
      eapply (DPost_mono q); [| apply incl_refl | apply incl_refl | eapply (DPost_trans q (fun k m => Names fs (fe_path e) k m p) (fun _ _ => False) [] [n] st st2 st3); try eassumption].
      * intros k m [K|[]]. exists n, how, p. auto.
      * eapply ext_trans; [eapply ext_mono; [|exact P2]; intros x [] | apply same_refs_ext; exact R].
      * lia.
      * split; [exact S02|]. split; [|intros m o' []]. intros o' m Ho' Hm. rewrite V. destruct (Nat.eq_dec o o') as [<-|Hne].
        -- rewrite nth_upd_same by lia. rewrite assoc_app, HO1, Hm. reflexivity.
        -- rewrite nth_upd_other by exact Hne. rewrite P31; [exact Hm | exact Ho' | intros []].
Qed.
Definition NamesOL (f : path) (l : list icontent) : names2 := fun k n => exists m how p, In (IDefine m how p) l /\ Names fs f k n p.
Lemma NoDup_prefix {A} (a b : list A) : NoDup (a ++ b) -> NoDup a.
Proof. induction a as [|x a IH]; intros H; [constructor|]. cbn in H. inversion H as [|? ? H1 H2]; subst. constructor; [intros K; apply H1, in_app_iff; left; exact K | apply IH; exact H2]. Qed.
Lemma overrides_safe l : Forall S_ovr l -> forall q f o e h st,
  (fix all (l : list icontent) : Prop := match l with [] => True | i :: l' => override_ok fs (fe_path e) (fe_decls e) i /\ all l' end) l -> gctx q -> agrees q e -> wf st -> tabs_in st q ->
  o < List.length (ovrs st) -> (forall o', In o' (chain q) -> o' < o) ->
  (fix all (l : list icontent) : Prop := match l with [] => True | i :: l' => override_fine O C fs true (fe_path e) (fe_decls e) h i /\ all l' end) l -> resolve (fe_path e) (lit_value h) = Some f ->
  NamesOK q (NamesOL (fe_path e) l) -> IncOK q (fe_path e) (fun r h => exists m how p, In (IDefine m how p) l /\ mentions_in r h p) ->
  NoDup (map fst (nth o (ovrs st) []) ++ names_of (overrides e l)) -> cellrefs st -> MB q st (overrides e l) ->
  safe (citer (fun i => cmap_err EInclude (compile_override (XOverrides (XInclude q f o initial_ns initial_dts)) i)) l st) (fun r => DPost q (NamesOL (fe_path e) l) (names_of (overrides e l)) st (snd r)).
Proof.
  induction 1 as [|i l Hi Hl IH]; intros q f o e h st Hok HG HA W HT Ho Hch HF Hr HN HI HD HR HM; cbn [citer overrides] in *.
  - apply DPost_nil; exact HR.
  - destruct Hok as [Ho1 Ho2]. destruct HF as [HF1 HF2]. rewrite names_app in HD. assert (HCq : chain_in st q) by (intros o' Ho'; apply Hch in Ho'; lia). eapply safe_bind.
    + apply safe_cmap. apply (Hi q f o e h st); try assumption.
      * eapply NamesOK_sub; [reflexivity | reflexivity | | exact HN]. intros k n (m & how & p & -> & K). exists m, how, p. split; [left; reflexivity | exact K].
      * eapply IncOK_sub; [reflexivity | | exact HI]. intros r h' (m & how & p & -> & K). exists m, how, p. split; [left; reflexivity | exact K].
      * rewrite app_assoc in HD. eapply NoDup_prefix; exact HD.
      * eapply MB_prefix; exact HM.
    + intros [] st1 H1 HP. cbn beta in HP. cbn [snd] in HP. apply cmap_err_ok in H1. apply (mainO i q f o e) in H1; try assumption. destruct H1 as (dx & Ed & (A1 & A2 & A3 & A4 & A5 & A6 & A7 & A8)).
      assert (HH : forall o' n, In o' (chain q) -> has o' st1 n = has o' st n).
      { intros o' n Ho'. apply keys_has. apply A5; [apply HCq; exact Ho' | apply Hch in Ho'; lia]. }
      assert (HT1 : tabs_in st1 q) by (eapply tabs_in_ext; eassumption). assert (Ho1' : o < List.length (ovrs st1)) by lia.
      eapply safe_impl.
      * apply (IH q f o e h st1); try assumption.
        -- eapply NamesOK_sub; [reflexivity | reflexivity | | exact HN]. intros k n (m & how & p & K1 & K). exists m, how, p. split; [right; exact K1 | exact K].
        -- eapply IncOK_sub; [reflexivity | | exact HI]. intros r h' (m & how & p & K1 & K). exists m, how, p. split; [right; exact K1 | exact K].
        -- rewrite A6, map_app, map_map. cbn [fst]. rewrite map_id, Ed, <- app_assoc. exact HD.
        -- exact (proj2 (proj2 (proj1 HP))).
        -- eapply (MB_next q st st1 dx); [exact A8 | | rewrite Ed; exact HM]. intros n. eapply blocked_keys; [exact Hch | exact Ho|]. intros o' h1 h2. exact (proj1 (A5 o' h1 h2)).
      * intros [[] st2] H2 HP2. cbn [snd] in *. apply (overrides_iter O C fs rp ri l ltac:(apply Forall_forall; intros; apply mainO) q f o e) in H2; try assumption.
        destruct H2 as (dx2 & Ed2 & (B1 & B2 & _)).
        rewrite names_app. eapply (DPost_mono q); [| apply incl_refl | apply incl_refl | eapply (DPost_trans q _ _ _ _ st st1 st2 HT HCq A2 B2 A3 HH HP HP2)].
        intros k n [(m & how & p & -> & K)|(m & how & p & K1 & K)]; exists m, how, p; (split; [|exact K]); [left; reflexivity | right; exact K1].
Qed.
Lemma agrees_env c e : agrees c e -> e = FEnv (fe_path e) (fe_decls e) [].
Proof. intros (_ & _ & H & _). destruct e; cbn in *. subst. reflexivity. Qed.
Lemma include_safe h i ov : (match ov with Some l => Forall S_ovr l | None => True end) -> S_con (GInclude h i ov).
Proof.
  intros Hov c e ovb ds st Hok HG HA W HT HC HF HS HN HI HR HE HM. destruct Hok as [-> Hok].
  pose proof (agrees_env c e HA) as Ee.
  inversion HE as [| | | |e0 href inh0 ov0 l0 f s cts inherited ds0 inner Hres Hs Hfc Hinh HEi os Hincl HEn]; subst. inversion HEn; subst. clear HEn HE.
  apply (default_iff c e _ HA) in Hinh. subst inherited. rewrite app_nil_r in *.
  cbn [SchemaCompile.compile_content].
  eapply safe_step; [unfold path_from; destruct HA as ((f0 & Hf0 & Hd0) & _); rewrite Hf0, Hd0, Hres; reflexivity|].
  eapply safe_step; [unfold cmap_err, get_schema; rewrite Hs; reflexivity|]. set (st1 := Cst _ _ _ _).
  destruct (HI RInclude h f (Hi_here h None ov) Hres) as [Hfine Hnew0]. destruct (Hnew0 0 f (Trail_0 fs f)) as (Hnew & _). clear Hnew0. specialize (Hfine s Hs).
  eapply safe_step.
  { unfold new_include. unfold cbind at 1. rewrite check_include_safe by exact Hnew. cbn [fbind fok rbind]. unfold cbind. reflexivity. }
  set (st2 := Cst (cells st1) _ _ _). change (List.length (ovrs st1)) with (List.length (ovrs st)). set (o := List.length (ovrs st)) in *.
  assert (R : same_refs st st2) by (split; reflexivity).
  assert (V2 : ovrs st2 = ovrs st ++ [[]]) by reflexivity.
  assert (W2 : wf st2) by (eapply same_refs_wf; eassumption).
  assert (HT2 : tabs_in st2 c) by (eapply tabs_in_ext; [apply (same_refs_ext []); exact R | exact HT]).
  assert (Lo : List.length (ovrs st2) = S o) by (rewrite V2, app_length; cbn; subst o; lia).
  assert (Hch : forall o', In o' (chain c) -> o' < o) by exact HC.
  assert (Hnewo : nth o (ovrs st2) [] = []) by (rewrite V2, app_nth2, Nat.sub_diag by (subst o; lia); reflexivity).
  assert (Hold : forall o', o' < o -> nth o' (ovrs st2) [] = nth o' (ovrs st) []) by (intros o' Ho'; rewrite V2; apply app_nth1; exact Ho').
  clearbody st2. clear st1.
  cbn [inherit_prefix]. eapply safe_step; [reflexivity|].
  assert (HR2 : cellrefs st2) by (exact (proj2 (proj2 (Step_same c (fun _ _ => False) [] st st2 R HR)))).
  assert (HC2 : chain_in st2 c) by (intros o' Ho'; apply Hch in Ho'; lia).
  assert (Hb2 : forall n, blocked st2 c n = blocked st c n).
  { intros n. apply blocked_old. intros o' Ho'. apply Hold, Hch, Ho'. }
  assert (HND : NoDup (names_of os)).
  { destruct ov as [l|]; [|constructor]. destruct HF as [HF _]. subst os. rewrite Ee. exact HF. }
  assert (HM2 : MB c st2 (os ++ filter (not_among (names_of os)) inner)).
  { intros n Hb. rewrite Hb2 in Hb. eapply MB1_content; [apply same_refs_content; exact R | apply HM; exact Hb]. }
  assert (Ho2 : o < List.length (ovrs st2)) by lia.
  (* the overrides *)
  eapply (safe_bind _ _ st2 (fun r => DPost c (fun k n => NamesC fs (fe_path e) k n (GInclude h None ov)) (names_of os) st2 (snd r))).
  { destruct ov as [l|]; [|apply DPost_nil; exact HR2]. destruct HF as [_ HF]. eapply safe_impl.
    - apply (overrides_safe l Hov c f o e h st2); try assumption.
      + eapply NamesOK_sub; [reflexivity | reflexivity | | exact HN]. intros k n (m & how & p & K1 & K). eapply Nc_override; eassumption.
      + eapply IncOK_sub; [reflexivity | | exact HI]. intros r h' (m & how & p & K1 & K). eapply mentions_override; eassumption.
      + rewrite Hnewo. exact HND.
      + eapply MB_prefix; exact HM2.
    - intros [[] st3] _ HP. cbn [snd] in *. eapply DPost_mono; [| apply incl_refl | apply incl_refl | exact HP]. intros k n (m & how & p & K1 & K). eapply Nc_override; eassumption. }
  intros [] st3 H3 HP3. cbn beta in HP3. cbn [snd] in HP3.
  assert (HOV : exists dxo, map fst dxo = os /\ OPx O C fs c o st2 st3 dxo).
  { destruct ov as [l|].
    - eapply (overrides_iter O C fs rp ri l ltac:(apply Forall_forall; intros; apply mainO)); eassumption.
    - cret H3. exists []. split; [reflexivity | apply OPx_nil; exact W2]. }
  clear H3. destruct HOV as (dxo & Eos & (A1 & A2 & A3 & A4 & A5 & A6 & A7 & A8)).
  rewrite Hnewo in A6. cbn [app] in A6. rewrite Eos in A5, A6.
  assert (HT3 : tabs_in st3 c) by (eapply tabs_in_ext; eassumption).
  destruct (Hfs _ _ Hs) as [Dok Tok]. destruct Hfine as [Dfine Tfine].
  set (inc0 := XInclude c f o initial_ns initial_dts).
  destruct (declared_safe inc0 (s_decls s) st3 I eq_refl eq_refl Dfine) as (ns & dt & Edecl & Hsees).
  destruct (declared_agrees f (s_decls s) inc0 st3 _ _ I eq_refl eq_refl eq_refl Dok Edecl) as (_ & _ & HAi).
  cbn [with_decls inc0] in Edecl, Hsees, HAi. set (inc := XInclude c f o ns dt) in *.
  assert (HC3 : chain_in st3 inc) by (intros o' [<-|Ho']; [lia|]; apply Hch in Ho'; lia).
  assert (Cok : contents_ok fs f (s_decls s) cts) by (destruct Hfc; cbn in Tok; [exact Tok | apply all_contents; exact Tok]).
  assert (Cfine : contents_fine O C fs true f (s_decls s) false cts) by (destruct Hfc; cbn in Tfine; exact Tfine).
  assert (Hb3 : forall n, blocked st3 c n = blocked st c n).
  { intros n. rewrite <- Hb2. apply (blocked_keys c o); [exact Hch | lia | intros o' h1 h2; exact (proj1 (A5 o' h1 h2))]. }
  assert (Hb : forall n, blocked st3 inc n = (if in_dec str_eq_dec n (names_of os) then true else false) || blocked st c n).
  { intros n. unfold blocked at 1. cbn [chain inc existsb]. fold (blocked st3 c n). rewrite Hb3. f_equal. unfold has. rewrite A6, assoc_false. destruct (in_dec _ _ _); reflexivity. }
  assert (HM3 : MB c st3 (filter (not_among (names_of os)) inner)).
  { eapply (MB_next c st2 st3 dxo); [exact A8 | intros n; rewrite Hb2; apply Hb3 | rewrite Eos; exact HM2]. }
  assert (HMi : MB inc st3 inner).
  { intros n Hbn. rewrite Hb in Hbn. apply orb_false_iff in Hbn. destruct Hbn as [Hn Hbn]. destruct (in_dec str_eq_dec n (names_of os)) as [|Hnin]; [discriminate Hn|].
    specialize (HM3 n ltac:(rewrite Hb3; exact Hbn)). change (owner inc) with (owner c).
    replace (defs_named n inner) with (defs_named n (filter (not_among (names_of os)) inner)); [exact HM3|].
    clear - Hnin. induction inner as [|d l IH]; [reflexivity|]. cbn [filter]. unfold not_among at 1. destruct (in_dec str_eq_dec (d_name d) (names_of os)) as [Hi|Hi].
    - unfold defs_named in *. cbn [filter]. unfold is_named at 2. destruct (str_eqb (d_name d) n) eqn:E; [apply str_eqb_eq in E; subst; contradiction | exact IH].
    - unfold defs_named in *. cbn [filter]. rewrite IH. reflexivity. }
  assert (Hmid : safe (ri inc cts st3) (fun r => DPost inc (NamesL f cts) (names_of inner) st3 (snd r))).
  { apply (Hsafe cts inc (FEnv f (s_decls s) []) inner st3); try assumption.
    - eapply NamesOK_sub; [reflexivity | reflexivity | | exact HN]. intros k n (g & K1 & K2). eapply Nc_include; eassumption.
    - eapply (IncOK_into c inc (fe_path e)); [exact HI | exact (Hi_here h None ov : mentions RInclude h _) | exact Hres | exact Hs | right; reflexivity|].
      intros r h' (g & K1 & K2). eapply mentioned_contents; eassumption.
    - exact (proj2 (proj2 (proj1 HP3))). }
  assert (Hsch : safe (cmap_err EInclude (compile_schema_with rp ri inc0 s) st3) (fun r => fst r = inc /\ ri inc cts st3 = fok (tt, snd r) /\ DPost inc (NamesL f cts) (names_of inner) st3 (snd r))).
  { apply safe_cmap. unfold compile_schema_with. eapply safe_step; [exact Edecl|].
    destruct Hfc; cbn [s_top is_include inc]; (eapply safe_bind; [exact Hmid | intros [] st4 H4 HP4; split; [reflexivity | split; [exact H4 | exact HP4]]]). }
  eapply safe_bind; [exact Hsch|]. clear Hsch Hmid. intros inc' st4 _ (Einc & H4 & HP4). cbn [fst snd] in *. subst inc'.
  apply (Hri inc (FEnv f (s_decls s) [])) in H4; try assumption. destruct H4 as (dxi & Ei & (B1 & B2 & B3 & B4 & B5)). apply Ei in HEi. subst inner.
  destruct HP4 as (S4 & M4 & K4). destruct HP3 as (S3 & M3 & K3).
  unfold check_overrides, inc. rewrite find_true.
  - cbn [safe fok snd]. destruct B3 as (B30 & B31 & B32).
    assert (X03 : ext [owner c] st st3) by (eapply ext_trans; [apply same_refs_ext; exact R | exact A2]).
    assert (Hsub : forall n, In n (names_of (map fst dxi)) -> In n (names_of (os ++ filter (not_among (names_of os)) (map fst dxi)))).
    { intros n Hn. rewrite names_app, in_app_iff. destruct (in_dec str_eq_dec n (names_of os)) as [Hin|Hin]; [left; exact Hin | right].
      apply in_map_iff in Hn. destruct Hn as (d & <- & Hd). apply in_map_iff. exists d. split; [reflexivity|]. apply filter_In. split; [exact Hd|]. unfold not_among. destruct (in_dec _ _ _); [contradiction | reflexivity]. }
    split; [|split].
    + eapply Step_mono; [| |eapply (Step_trans c (fun k n => NamesC fs (fe_path e) k n (GInclude h None ov)) (NamesL f cts) (names_of os) (names_of (map fst dxi)) st st3 st4 HT X03 B2)].
      * intros k n [K|(g & K1 & K2)]; [exact K|]. eapply Nc_include; eassumption.
      * intros n Hn. apply in_app_iff in Hn. destruct Hn as [Hn|Hn]; [rewrite names_app; apply in_app_iff; left; exact Hn | apply Hsub; exact Hn].
      * eapply Step_mono; [| |eapply (Step_trans c (fun _ _ => False) _ [] _ st st2 st3 HT); [apply same_refs_ext; exact R | exact A2 | apply Step_same; [exact R | exact HR] | exact S3]].
        -- intros k n [[]|K]; exact K.
        -- apply incl_refl.
      * exact S4.
    + eapply omono_trans; [| |exact M4]; [lia|]. eapply omono_trans; [| |exact M3]; [lia|]. intros o' n Ho' Hn. rewrite Hold by exact Ho'. exact Hn.
    + intros n o' Hn Hf. rewrite names_app, in_app_iff in Hn. pose proof (find_some _ _ Hf) as [Hino _]. apply Hch in Hino.
      destruct Hn as [Hn|Hn].
      * apply M4; [lia|]. apply (K3 n o' Hn). rewrite (find_has c st st2); [exact Hf|]. intros o1 Ho1. unfold has. rewrite Hold by (apply Hch; exact Ho1). reflexivity.
      * apply in_map_iff in Hn. destruct Hn as (d & <- & Hd). apply filter_In in Hd. destruct Hd as [Hd Hd']. unfold not_among in Hd'. destruct (in_dec str_eq_dec (d_name d) (names_of os)) as [|Hnin]; [discriminate Hd'|].
        apply K4; [apply in_map_iff; exists d; auto|]. cbn [chain inc find]. unfold has at 1. rewrite A6, assoc_false. destruct (in_dec str_eq_dec (d_name d) (names_of os)); [contradiction|].
        rewrite (find_has c st st3); [exact Hf|]. intros o1 Ho1. apply Hch in Ho1. unfold has. rewrite <- (Hold o1 Ho1). apply keys_has. apply A5; lia.
  - destruct B3 as (_ & _ & B3). destruct (B3 o ltac:(lia)) as [K _]. rewrite K, A6, map_map. cbn [fst]. rewrite map_id. exact HND.
  - intros n Hn. destruct B3 as (_ & _ & B3). destruct (B3 o ltac:(lia)) as [K _]. rewrite K, A6, map_map in Hn. cbn [fst] in Hn. rewrite map_id in Hn.
    apply K4; [apply Hincl; exact Hn|]. cbn [chain inc find]. unfold has at 1. rewrite A6, assoc_false. destruct (in_dec str_eq_dec n (names_of os)); [reflexivity | contradiction].
Qed.
Lemma take_start_safe t st : wf st -> content st t (lit "start") <> None ->
  exists X st' R, take_start t st = fok (X, st') /\ X = rule_pattern R /\ content st t (lit "start") = Some R /\ tables st' = tables st /\
  (forall x R', snd (nth x (cells st') ([], None)) = Some R' -> snd (nth x (cells st) ([], None)) = Some R').
Proof.
  intros [W1 _] H. unfold content in H. destruct (look st t (lit "start")) as [r|] eqn:El; [|contradiction].
  destruct (snd (nth r (cells st) ([], None))) as [R|] eqn:Er; [|contradiction]. 
  unfold take_start, get_ref_in, take_cell. unfold cbind at 1. cbn [fbind fok rbind]. fold (look st t (lit "start")). rewrite El. unfold cbind.
  destruct (nth r (cells st) ([], None)) as [nm d] eqn:En. cbn [snd] in Er. subst d. cbn [fbind fok rbind]. eexists _, _, R. split; [reflexivity|]. split; [reflexivity|].
  split; [unfold content; rewrite El, En; reflexivity|]. split; [reflexivity|].
  intros x R' Hx. cbn [cells] in Hx. destruct (Nat.eq_dec r x) as [<-|Hn]; [|rewrite nth_upd_other in Hx by exact Hn; exact Hx].
  rewrite nth_upd_same in Hx by (eapply W1; exact El). discriminate Hx.
Qed.
Lemma named_content n dx st t : merged n None dx = fok (content st t n) -> In n (names_of (map fst dx)) -> content st t n <> None.
Proof.
  intros H Hn K. rewrite K in H. apply in_map_iff in Hn. destruct Hn as (d & <- & Hd).
  assert (Hd' : In d (defs_named (d_name d) (map fst dx))) by (apply filter_In; split; [exact Hd | apply str_eqb_refl]).
  destruct (hx_of_in _ _ _ Hd') as (X & _ & Hh). apply merge_all_combined in H. rewrite H in Hh. destruct Hh.
Qed.
(** a nested grammar, its contents compiled by [cl] *)
Lemma grammar_gen pl cl l c e ov st : pl <> Outermost -> S_contents cl ov l ->
  (forall st1 st2, wf st1 -> tabs_in st1 (XGrammar c (List.length (tables st))) -> cl (XGrammar c (List.length (tables st))) l st1 = fok (tt, st2) -> CP O C fs (XGrammar c (List.length (tables st))) e l st1 st2) ->
  contents_ok fs (fe_path e) (fe_decls e) l -> agrees c e -> wf st -> tabs_in st c ->
  grammar_fine fs true pl e l -> (forall n g, within c = Some n -> In g l -> ~ NamesC fs (fe_path e) 1 n g) -> contents_fine O C fs true (fe_path e) (fe_decls e) ov l ->
  sees c (fe_decls e) ov -> NamesOK c (fun k n => NamesL (fe_path e) l (S k) n) -> IncOK c (fe_path e) (IncL l) -> cellrefs st ->
  let t := List.length (tables st) in
  safe (cl (XGrammar c t) l (Cst (cells st) (tables st ++ [[]]) (ovrs st) (loaded st))) (fun r =>
    (forall n x, look (snd r) t n = Some x -> content (snd r) t n <> None) /\ keyed (snd r) /\
    safe (take_start t (snd r)) (fun r => EP c (fun k n => NamesL (fe_path e) l (S k) n) st (fst r) (snd r))).
Proof.
  intros Hpl Hl Hcp Hok HA W HT (ds & HE & Hcomb & Hstart & Hnames) Hself Hall HS HN HI HR.
  set (t := List.length (tables st)) in *. set (st1 := Cst _ _ _ _). cbv zeta.
  destruct (new_table_ok st t st1 W eq_refl) as (W1 & E1 & V1 & _ & Hlt & Hempty).
  assert (HL1 : forall t' n, look st1 t' n = look st t' n).
  { intros t' n. unfold look, st1. cbn [tables]. destruct (Nat.lt_ge_cases t' (List.length (tables st))) as [K|K]; [rewrite app_nth1 by exact K; reflexivity|].
    rewrite app_nth2 by exact K. rewrite (nth_overflow (tables st) [] K). destruct (t' - _) as [|[|k]]; reflexivity. }
  assert (HR1 : cellrefs st1).
  { destruct HR as [HK HR]. split; [intros t'; unfold st1; cbn [tables]; destruct (Nat.lt_ge_cases t' (List.length (tables st))) as [K|K]; [rewrite app_nth1 by exact K; apply HK | rewrite app_nth2 by exact K; destruct (t' - _) as [|[|?]]; constructor]|].
    intros x R Hx y Hy. destruct (HR x R Hx y Hy) as (t' & n & K1 & K2). exists t', n. rewrite HL1. auto. }
  set (g := XGrammar c t).
  assert (HTg : tabs_in st1 g) by (intros t' [<-|Ht']; [exact Hlt|]; apply HT in Ht'; destruct E1 as (E1 & _); lia).
  assert (HAg : agrees g e) by (apply agrees_sub; exact HA).
  assert (Hcont : safe (cl g l st1) (fun r => DPost g (NamesL (fe_path e) l) (names_of ds) st1 (snd r))).
  { apply (Hl g e ds st1); try assumption.
    - exact I.
    - intros o [].
    - intros k n (gg & K1 & K2). destruct k as [|k].
      + split; [|intros K; discriminate K]. exists t. split; [reflexivity|]. intros ->. exfalso. destruct (Hnames gg (lit "start") K1 K2) as [_ K]. apply (K eq_refl Hpl eq_refl).
      + destruct (HN k n) as [(t' & L1 & L2) _]; [exists gg; auto|]. split; [exists t'; split; [exact L1 | exact L2]|].
        intros Ek. injection Ek as ->. cbn [outer_self g]. intros K. eapply Hself; eassumption.
    - intros n _. exists []. split; [cbn; f_equal; symmetry; rewrite (Hempty n); reflexivity | apply Hcomb]. }
  eapply safe_impl; [exact Hcont|]. clear Hcont. intros [[] st2] H2 ((S1 & S2 & S3) & _ & _). cbn [snd] in *.
  apply Hcp in H2; [|exact W1 | exact HTg].
  destruct H2 as (dx & Ed & (A1 & A2 & A3 & A4 & A5)). apply Ed in HE. subst ds. change (owner g) with t in *.
  assert (A5' : forall n, merged n None dx = fok (content st2 t n)) by (intros n; specialize (A5 n); rewrite Hempty in A5; exact A5).
  assert (Hin : forall n r, look st2 t n = Some r -> In n (names_of (map fst dx))).
  { intros n r Hlk. destruct (S1 t n r Hlt Hlk) as [K|[(k & K1 & K2)|[K1 K2]]].
    - rewrite HL1 in K. apply look_bound in K. subst t. lia.
    - destruct K2 as (gg & K3 & K4). destruct k as [|k]; [apply (Hnames gg n K3 K4); left; reflexivity|]. cbn in K1. apply (tabs_nth st c) in K1; [subst t; lia | exact HT].
    - exact K2. }
  split; [intros n x Hx; eapply named_content; [apply A5' | eapply Hin; exact Hx]|]. split; [exact (proj1 S3)|].
  destruct (take_start_safe t st2 A1) as (X & st3 & R & E3 & -> & HRs & Ht3 & Hc3); [eapply named_content; [apply A5' | exact Hstart]|].
  destruct (take_start_ok t st2 _ st3 A1 E3) as (W3 & E23 & _ & _).
  assert (HC3 : forall n, content st3 t n = if str_eqb (lit "start") n then None else content st2 t n).
  { destruct (take_start_ok t st2 _ st3 A1 E3) as (_ & _ & _ & R0 & _ & _ & K). exact K. }
  eapply safe_ok; [exact E3|]. cbn [fst snd].
  assert (HL3 : forall t' n, look st3 t' n = look st2 t' n) by (intros; unfold look; rewrite Ht3; reflexivity).
  assert (Hgood : forall x, good st2 x -> good st3 x) by (intros x (t' & n & K1 & K2); exists t', n; rewrite HL3; auto).
  assert (Lt1 : List.length (tables st1) = S t) by (unfold st1; cbn; rewrite app_length; cbn; subst t; lia).
  split; [split; [|split]|].
  - intros t' n r Ht' Hlk. fold t in Ht'. rewrite HL3 in Hlk. destruct (S1 t' n r ltac:(lia) Hlk) as [K|[(k & K1 & K2)|[K1 K2]]].
    + rewrite HL1 in K. left; exact K.
    + destruct K2 as (gg & K3 & K4). destruct k as [|k]; [cbn in K1; injection K1 as K1; lia|]. right; left. exists k. split; [exact K1|]. exists gg; auto.
    + change (owner g) with t in K1. lia.
  - intros t' n r Ht' Hlk. fold t in Ht'. rewrite HL3 in Hlk. destruct (Nat.eq_dec t' t) as [->|Hne].
    + assert (Hn : In n (names_of (map fst dx))) by (eapply Hin; exact Hlk).
      rewrite HC3. destruct (str_eqb (lit "start") n) eqn:Es; [left; apply str_eqb_eq in Es; congruence | right; eapply named_content; [apply A5' | exact Hn]].
    + destruct (S2 t' n r ltac:(lia) Hlk) as [K|K]; [left; exact K | right]. destruct E23 as (_ & _ & E23). rewrite E23; [exact K | | intros [K'|[]]; congruence].
      apply look_bound in Hlk. exact Hlk.
  - split; [eapply keyed_same; [exact Ht3 | apply S3]|]. intros x R' Hx y Hy. apply Hgood. eapply (proj2 S3); [apply Hc3; exact Hx | exact Hy].
  - intros x Hx. apply Hgood. unfold content in HRs. destruct (look st2 t (lit "start")) as [r0|]; [|discriminate HRs]. eapply (proj2 S3); eassumption.
Qed.
Lemma grammar_safe l : Forall S_con l -> S_pat (SGrammar l).
Proof.
  intros Hl c e ov st Hok HA W HT HF HS HN HI HR. destruct HF as (Hg & Hself & Hall). apply all_fine in Hall. pose proof (agrees_env c e HA) as Ee. rewrite <- Ee in Hg.
  cbn [SchemaCompile.compile_pattern]. eapply safe_step; [reflexivity|]. eapply safe_bind.
  - apply (grammar_gen Inner (fun c => citer (compile_content c)) l c e ov st); try assumption.
    + discriminate.
    + apply contents_safe; exact Hl.
    + intros st1 st2 W1 HT1 H. apply (contents_iter O C fs rp ri l ltac:(apply Forall_forall; intros; apply mainC) _ e) in H; try assumption; first [apply all_contents; exact Hok | exact I | apply agrees_sub; exact HA | intros o []].
    + apply all_contents; exact Hok.
    + eapply NamesOK_sub; [reflexivity | reflexivity | | exact HN]. intros k n (g & K1 & K2). eapply Na_grammar; eassumption.
    + eapply IncOK_sub; [reflexivity | | exact HI]. intros r h (g & K1 & K2). eapply mentions_grammar; eassumption.
  - intros [] st2 _ (_ & _ & K). cbn [snd table_of] in *. eapply safe_impl; [exact K|]. intros [X st3] _ HP. cbn [fst snd] in *.
    eapply (EP_sub c c); [reflexivity | | apply incl_refl | exact HP]. intros k n (g & K1 & K2). eapply Na_grammar; eassumption.
Qed.
(** a file of no elements is fine in an attribute *)
Lemma fine_attr f ds ov : forall p self, fine O C fs true f ds ov false self p -> ~ Shows fs f p -> fine O C fs true f ds ov true self p.
Proof.
  fix IH 1. intros p self H HS.
  assert (HC : forall q, child q p -> ~ Shows fs f q) by (intros q Hq K; apply HS; eapply Sh_child; eassumption).
  destruct p; cbn [fine] in *; try exact H; try (apply IH; [exact H | apply HC; constructor]);
    try (destruct H as [H1 H2]; split; apply IH; try assumption; apply HC; constructor).
  - exfalso. apply HS. constructor.
  - destruct H as (-> & f' & s' & K1 & K2 & K3). split; [reflexivity|]. exists f', s'. split; [exact K1|]. split; [exact K2|]. destruct s' as [sd [q|l]]; cbn [s_top] in *; [|exact K3].
    intros _ K. apply HS. eapply Sh_external; eassumption.
  - destruct H as [H1 H2]. split; [exact H1|]. destruct ex as [e|]; [|exact I]. apply IH; [exact H2 | apply HC; constructor].
Qed.
Lemma external_safe h i : S_pat (SExternal h i).
Proof.
  intros c e ov st [_ Hok] HA W HT (-> & f & s & Hres & Hs & Hf) HS HN HI HR. specialize (Hok f s Hres Hs). cbn [SchemaCompile.compile_pattern].
  eapply safe_step; [unfold path_from; destruct HA as ((f0 & Hf0 & Hd0) & _); rewrite Hf0, Hd0, Hres; reflexivity|].
  eapply safe_step; [unfold cmap_err, get_schema; rewrite Hs; reflexivity|]. set (st1 := Cst _ _ _ _).
  assert (Hhere : mentions_in RExternal h (SExternal h None)) by (apply Oi_here).
  destruct (HI RExternal h f Hhere Hres) as [Hfine Hnew0]. destruct (Hnew0 0 f (Trail_0 fs f)) as (Hnew & _). clear Hnew0. specialize (Hfine s Hs).
  eapply safe_step.
  { unfold new_include. unfold cbind at 1. rewrite check_include_safe by exact Hnew. cbn [fbind fok rbind]. unfold cbind. reflexivity. }
  set (st2 := Cst (cells st1) _ _ _). change (List.length (ovrs st1)) with (List.length (ovrs st)). set (o := List.length (ovrs st)) in *.
  assert (R : same_refs st st2) by (split; reflexivity).
  assert (W2 : wf st2) by (eapply same_refs_wf; eassumption).
  assert (HT2 : tabs_in st2 c) by (eapply tabs_in_ext; [apply (same_refs_ext []); exact R | exact HT]).
  assert (HR2 : cellrefs st2) by (exact (proj2 (proj2 (Step_same c (fun _ _ => False) [] st st2 R HR)))).
  clearbody st2. clear st1.
  destruct (Hfs _ _ Hs) as [Dok Tok].
  assert (HEP : forall X st', EP c (fun k n => Names fs (fe_path e) k n (SExternal h None)) st2 X st' -> EP c (fun k n => Names fs (fe_path e) k n (SExternal h None)) st X st').
  { intros X st' [A B]. split; [|exact B]. destruct A as (A1 & A2 & A3). split; [|split; [|exact A3]].
    - intros t n r Ht Hl. rewrite <- (same_refs_look _ _ R). apply A1; [destruct R as [_ Rt]; rewrite Rt; exact Ht | exact Hl].
    - destruct R as [_ Rt]. rewrite <- Rt. exact A2. }
  destruct s as [sd [q|l]]; cbn [s_top s_decls] in *.
  - apply safe_cmap. set (inc := XInclude c f o initial_ns initial_dts). eapply safe_impl.
    + apply (Hsafe_p q inc (FEnv f sd []) true st2); try assumption; cbn [fe_path fe_decls].
      * apply external_agrees; assumption.
      * cbn [parent_attribute within inc]. destruct (parent_attribute c); [|exact Hfine]. apply fine_attr; [exact Hfine | apply Hf; reflexivity].
      * intros p Hp. cbn in Hp. subst p. discriminate.
      * eapply NamesOK_sub; [reflexivity | reflexivity | | exact HN]. intros k n K. eapply Na_external; eassumption.
      * eapply (IncOK_into c inc (fe_path e)); [exact HI | exact Hhere | exact Hres | exact Hs | right; reflexivity|]. intros r h' K. apply mentioned_pattern; exact K.
    + intros [X st3] _ HP. cbn [fst snd] in *. apply HEP. eapply (EP_sub c inc); [reflexivity | | apply incl_refl | exact HP]. intros k n K. eapply Na_external; eassumption.
  - destruct Hok as [-> Hdir]. destruct Hf as (Hov & Hg & Hself). specialize (Hov eq_refl). subst ov. set (e' := FEnv f (fe_decls e) []) in *.
    assert (HA' : agrees c e').
    { destruct HA as ((f0 & F1 & F2) & G1 & G2 & G3 & G4 & G5). split; [exists f0; split; [exact F1 | intros h'; rewrite F2; apply Hdir]|].
      split; [exact G1|]. split; [reflexivity|]. split; [exact G3|]. split; [exact G4 | exact G5]. }
    eapply safe_step; [reflexivity|]. eapply safe_bind.
    + apply (grammar_gen Outside ri l c e' false st2); try assumption.
      * discriminate.
      * apply Hsafe.
      * intros st3 st4 W3 HT3 H. apply (Hri _ e') in H; try assumption; try exact I; first [apply agrees_sub; exact HA' | intros o' []].
      * eapply NamesOK_sub; [reflexivity | reflexivity | | exact HN]. intros k n (g & K1 & K2). eapply Na_external_grammar; eassumption.
      * eapply (IncOK_into c c (fe_path e)); [exact HI | exact Hhere | exact Hres | exact Hs | left; reflexivity|]. intros r h' (g & K1 & K2). eapply mentioned_contents; [constructor | exact K1 | exact K2].
    + intros [] st3 _ (Hall & Hkey & K). cbn [snd table_of] in *. eapply safe_step; [unfold undefined_in; reflexivity|].
      destruct (find _ (nth _ (tables st3) [])) as [[n x]|] eqn:Ef.
      { exfalso. apply find_some in Ef. destruct Ef as [Hi Hb]. apply (assoc_nodup n _ x (Hkey _)) in Hi. fold (look st3 (List.length (tables st2)) n) in Hi. apply (Hall n x) in Hi as K'. unfold content in K'. rewrite Hi in K'.
        destruct (snd (nth x (cells st3) ([], None))); [discriminate Hb | congruence]. }
      cbn [option_map]. eapply safe_impl; [exact K|]. intros [X st4] _ HP. cbn [fst snd] in *. apply HEP.
      eapply (EP_sub c c); [reflexivity | | apply incl_refl | exact HP]. intros k n (g & K1 & K2). eapply Na_external_grammar; eassumption.
Qed.
Lemma two_refs (X Y Z : mpat) : mrefs Z = mrefs X ++ mrefs Y -> forall S, refs_in S X -> refs_in S Y -> refs_in S Z.
Proof. intros E S HX HY r Hr. rewrite E in Hr. apply in_app_iff in Hr. destruct Hr as [Hr|Hr]; [apply HX | apply HY]; exact Hr. Qed.
Lemma main_safe : (forall p, S_pat p) /\ (forall g, S_con g) /\ (forall i, S_ovr i).
Proof.
  assert (H_sub : forall q p c' c e ov st (F : mpat -> mpat), child q p -> tabs c' = tabs c -> outer_self c' = outer_self c -> inc_files c' = inc_files c -> (forall X, mrefs (F X) = mrefs X) ->
    S_pat q -> pat_ok fs (fe_path e) (fe_decls e) q -> agrees c' e -> wf st -> tabs_in st c -> fine O C fs true (fe_path e) (fe_decls e) ov (parent_attribute c') (within c') q -> sees c' (fe_decls e) ov ->
    NamesOK c (fun k n => Names fs (fe_path e) k n p) -> IncOK c (fe_path e) (fun r h => mentions_in r h p) -> cellrefs st ->
    safe ((do x <- compile_pattern c' q; cret (F x)) st) (fun r => EP c (fun k n => Names fs (fe_path e) k n p) st (fst r) (snd r))).
  { intros q p c' c e ov st F Hc Et Eo Ei HF IH Hok HA W HT Hfi HS HN HI HR. eapply safe_bind.
    - apply (IH c' e ov st); try assumption; [intros t; rewrite Et; apply HT | |].
      + eapply NamesOK_sub; [exact Et | exact Eo | | exact HN]. intros k n K. eapply Na_child; eassumption.
      + eapply IncOK_sub; [exact Ei | | exact HI]. intros r h K. eapply mentions_child; eassumption.
    - intros X st1 _ HP. cbn [fst snd] in HP. cbn. eapply EP_sub; [exact Et | | | exact HP].
      + intros k n K. eapply Na_child; eassumption.
      + rewrite HF. apply incl_refl. }
  assert (H_one : forall W F, (forall c q st, compile_pattern c (W q) st = (do x <- compile_pattern c q; cret (F x)) st) -> (forall q, child q (W q)) -> (forall X, mrefs (F X) = mrefs X) ->
    (forall f ds q, pat_ok fs f ds (W q) = pat_ok fs f ds q) -> (forall f ds ov a s q, fine O C fs true f ds ov a s (W q) = fine O C fs true f ds ov a s q) -> forall q, S_pat q -> S_pat (W q)).
  { intros W F HW Hc HF HP Hfi q IH c e ov st Hok HA W0 HT Hf HS HN HI HR. rewrite HW. rewrite HP in Hok. rewrite Hfi in Hf. eapply (H_sub q (W q) c c); eauto. }
  assert (H_two : forall W F, (forall c a b st, compile_pattern c (W a b) st = (do x <- compile_pattern c a; do y <- compile_pattern c b; cret (F x y)) st) ->
    (forall a b, child a (W a b)) -> (forall a b, child b (W a b)) -> (forall X Y, mrefs (F X Y) = mrefs X ++ mrefs Y) ->
    (forall f ds a b, pat_ok fs f ds (W a b) = (pat_ok fs f ds a /\ pat_ok fs f ds b)) -> (forall f ds ov at' s a b, fine O C fs true f ds ov at' s (W a b) = (fine O C fs true f ds ov at' s a /\ fine O C fs true f ds ov at' s b)) ->
    forall a b, S_pat a -> S_pat b -> S_pat (W a b)).
  { intros W F HW Hc Hc' HF HP Hfi a b IHa IHb c e ov st Hok HA W0 HT Hf HS HN HI HR. rewrite HW. rewrite HP in Hok. rewrite Hfi in Hf. destruct Hok as [Ok1 Ok2]. destruct Hf as [Hf1 Hf2].
    assert (HNa : forall q, child q (W a b) -> NamesOK c (fun k n => Names fs (fe_path e) k n q)) by (intros q Hq; eapply NamesOK_sub; [reflexivity | reflexivity | | exact HN]; intros k n K; eapply Na_child; eassumption).
    assert (HIa : forall q, child q (W a b) -> IncOK c (fe_path e) (fun r h => mentions_in r h q)) by (intros q Hq; eapply IncOK_sub; [reflexivity | | exact HI]; intros r h K; eapply mentions_child; eassumption).
    eapply safe_bind; [apply (IHa c e ov st); auto|]. intros X st1 H1 [A B]. cbn [fst snd] in *.
    apply (mainP a c e) in H1; try assumption. destruct H1 as (P1 & P2 & P3 & _). assert (HT1 : tabs_in st1 c) by (eapply tabs_in_ext; eassumption).
    eapply safe_bind; [apply (IHb c e ov st1); auto; exact (proj2 (proj2 A))|]. intros Y st2 H2 [A' B']. cbn [fst snd] in *.
    apply (mainP b c e) in H2; try assumption. destruct H2 as (Q1 & Q2 & _). cbn.
    destruct (EP_cons c _ _ st X st1 st2 HT P2 Q2 A A' B) as [K1 K2]. split.
    - eapply Step_mono; [| apply incl_refl | exact K1]. intros k n [K|K]; eapply Na_child; [apply Hc | exact K | apply Hc' | exact K].
    - eapply two_refs; [apply HF | exact K2 | exact B']. }
  assert (H_el : forall nc p, S_pat p -> S_pat (SElement nc p)).
  { intros nc p IH c e ov st Hok HA W HT (Hat & Hnc & Hf) HS HN HI HR. cbn [SchemaCompile.compile_pattern].
    destruct (nameclass_safe c (fe_decls e) ov true nc st HS Hnc) as [n' En]. eapply safe_step; [exact En|].
    eapply safe_step; [unfold new_element; rewrite Hat; reflexivity|].
    eapply (H_sub p (SElement nc p) (XElement c) c e ov st (MElement n')); try eassumption; try reflexivity; [constructor|]. cbn [parent_attribute within]. rewrite Hat. exact Hf. }
  assert (H_at : forall nc p, S_pat p -> S_pat (SAttribute nc p)).
  { intros nc p IH c e ov st Hok HA W HT (Hnc & Hf) HS HN HI HR. cbn [SchemaCompile.compile_pattern].
    destruct (nameclass_safe c (fe_decls e) ov false nc st HS Hnc) as [n' En]. eapply safe_step; [exact En|].
    eapply (H_sub p (SAttribute nc p) (XAttribute c) c e ov st (MAttribute n')); try eassumption; try reflexivity. constructor. }
  assert (H_li : forall p, S_pat p -> S_pat (SList p)) by (apply (H_one SList MList); reflexivity || constructor).
  assert (H_mi : forall p, S_pat p -> S_pat (SMixed p)) by (apply (H_one SMixed MMixed); reflexivity || constructor).
  assert (H_op : forall p, S_pat p -> S_pat (SOptional p)) by (apply (H_one SOptional MOptional); reflexivity || constructor).
  assert (H_ze : forall p, S_pat p -> S_pat (SZeroOrMore p)) by (apply (H_one SZeroOrMore MZeroOrMore); reflexivity || constructor).
  assert (H_on : forall p, S_pat p -> S_pat (SOneOrMore p)) by (apply (H_one SOneOrMore MOneOrMore); reflexivity || constructor).
  assert (H_gp : forall p, S_pat p -> S_pat (SGroup p)).
  { apply (H_one SGroup (fun x => x)); try reflexivity; try constructor. intros c q st. cbn [SchemaCompile.compile_pattern]. unfold cbind, cret. destruct (compile_pattern c q st) as [[[? ?]|?]|?|]; reflexivity. }
  assert (H_lp : forall a b, S_pat a -> S_pat b -> S_pat (SListPair a b)).
  { apply (H_two SListPair (fun x y => MGroup (seq_members x ++ seq_members y))); try reflexivity; try constructor.
    intros X Y. cbn [mrefs]. rewrite flat_map_app. f_equal; apply refs_members_seq. }
  assert (H_ip : forall a b, S_pat a -> S_pat b -> S_pat (SInterleavePair a b)).
  { apply (H_two SInterleavePair (fun x y => MInterleave (inter_members x ++ inter_members y))); try reflexivity; try constructor.
    intros X Y. cbn [mrefs]. rewrite flat_map_app. f_equal; apply refs_members_inter. }
  assert (H_cp : forall a b, S_pat a -> S_pat b -> S_pat (SChoicePair a b)).
  { apply (H_two SChoicePair (fun x y => MChoice (choice_members x ++ choice_members y))); try reflexivity; try constructor.
    intros X Y. cbn [mrefs]. rewrite flat_map_app. f_equal; apply refs_members_choice. }
  assert (H_id : forall i, S_pat (SIdent i)).
  { intros i c e ov st Hok HA W HT Hf HS HN HI HR. cbn [SchemaCompile.compile_pattern]. destruct (HN 0 i (Na_ident fs _ i)) as [(t & K1 & K2) _].
    assert (Ht : t = owner c) by (rewrite tabs_owner in K1; injection K1 as ->; reflexivity). subst t.
    eapply safe_bind.
    - unfold acquire_ref. eapply safe_step; [apply check_rec_safe; exact Hf|]. rewrite acquire_impl_eq. apply (acquire_EP c 0 i st W HT HR _ K1 K2).
    - intros r st1 _ HP. cbn [fst snd] in HP. cbn. eapply EP_sub; [reflexivity | | apply incl_refl | exact HP]. intros k n [-> ->]. constructor. }
  assert (H_pa : forall i, S_pat (SParent i)).
  { intros i c e ov st Hok HA W HT Hf HS HN HI HR. cbn [SchemaCompile.compile_pattern]. destruct (HN 1 i (Na_parent fs _ i)) as [(t & K1 & K2) K3].
    eapply safe_bind.
    - rewrite (acquire_parent_eq c i st t K1 (K3 eq_refl)). apply (acquire_EP c 1 i st W HT HR _ K1 K2).
    - intros r st1 _ HP. cbn [fst snd] in HP. cbn. eapply EP_sub; [reflexivity | | apply incl_refl | exact HP]. intros k n [-> ->]. constructor. }
  assert (H_em : S_pat SEmpty) by (intros c e ov st Hok HA W HT Hf HS HN HI HR; apply EP_pure; [exact HR | reflexivity]).
  assert (H_te : S_pat SText) by (intros c e ov st Hok HA W HT Hf HS HN HI HR; apply EP_pure; [exact HR | reflexivity]).
  assert (H_na : S_pat SNotAllowed) by (intros c e ov st Hok HA W HT Hf HS HN HI HR; apply EP_pure; [exact HR | reflexivity]).
  assert (H_va : forall n v, S_pat (SValue n v)).
  { intros n v c e ov st Hok HA W HT Hf HS HN HI HR. cbn [SchemaCompile.compile_pattern]. destruct (dtname_safe c e (match n with Some n => n | None => SdToken end) st HA) as (d & E & K); [destruct n; [exact Hok | exact I]|].
    eapply safe_step; [exact E|]. rewrite <- (agrees_env c e HA) in Hf || idtac. pose proof (agrees_env c e HA) as Ee. cbn [fine] in Hf. rewrite <- Ee in Hf. destruct (Hf d K) as [x Hx].
    eapply safe_step; [apply lift_safe; exact Hx|]. apply EP_pure; [exact HR | reflexivity]. }
  assert (H_da : forall n ps ex, (match ex with Some e => S_pat e | None => True end) -> S_pat (SData n ps ex)).
  { intros n ps ex IH c e ov st [Hk1 Hk2] HA W HT [Hf1 Hf2] HS HN HI HR. cbn [SchemaCompile.compile_pattern]. destruct (dtname_safe c e n st HA Hk1) as (d & E & K).
    eapply safe_step; [exact E|]. pose proof (agrees_env c e HA) as Ee. rewrite <- Ee in Hf1. destruct (Hf1 d K) as [x Hx].
    eapply safe_step; [apply lift_safe; rewrite values_eq; exact Hx|]. destruct ex as [p|].
    - assert (K0 : safe ((do x <- compile_pattern c p; cret x) st) (fun r => EP c (fun k n0 => Names fs (fe_path e) k n0 (SData n ps (Some p))) st (fst r) (snd r))).
      { apply (H_sub p (SData n ps (Some p)) c c e ov st (fun x => x)); try assumption; try reflexivity. constructor. }
      revert K0. unfold cbind, cret. destruct (compile_pattern c p st) as [[[X st1]|?]|?|]; cbn; auto.
    - eapply safe_step; [reflexivity|]. apply EP_pure; [exact HR | reflexivity]. }
  assert (H_gv : forall l, Forall S_con l -> S_con (GDiv l)).
  { intros l Hl c e ov ds st Hok HG HA W HT HC HF HS HN HI HR HE HM. cbn [SchemaCompile.compile_content]. inversion HE; subst. match goal with K : Expand _ _ [] _ |- _ => inversion K; subst end. rewrite app_nil_r in *.
    eapply safe_impl.
    - apply (contents_safe ov l Hl c e ds1 st); try assumption; [apply all_contents; exact Hok | apply all_fine; exact HF | |].
      + eapply NamesOK_sub; [reflexivity | reflexivity | | exact HN]. intros k n (g & K1 & K2). eapply Nc_div; eassumption.
      + eapply IncOK_sub; [reflexivity | | exact HI]. intros r h (g & K1 & K2). eapply mentions_div; eassumption.
    - intros [[] st1] _ HP. cbn [snd] in *. eapply DPost_mono; [| apply incl_refl | apply incl_refl | exact HP]. intros k n (g & K1 & K2). eapply Nc_div; eassumption. }
  assert (H_ga : forall a, S_con (GAnnotation a)).
  { intros a c e ov ds st Hok HG HA W HT HC HF HS HN HI HR HE HM. inversion HE; subst. match goal with K : Expand _ _ [] _ |- _ => inversion K; subst end. apply DPost_nil; exact HR. }
  assert (H_iv : forall l, Forall S_ovr l -> S_ovr (IDiv l)) by (intros l _ q f o e h st _ _ _ _ _ _ _ []).
  assert (H_ia : forall a, S_ovr (IAnnotation a)) by (intros a q f o e h st _ _ _ _ _ _ _ _ _ _ _ _ HR _; apply DPost_nil; exact HR).
  split; [|split]; [apply (spat_ind' S_pat S_con S_ovr) | apply (gcontent_ind' S_pat S_con S_ovr) | apply (icontent_ind' S_pat S_con S_ovr)];
    auto using grammar_safe, external_safe, include_safe, override_define, define_con.
Qed.
End Rec.

Lemma nested_safe d : (forall l, S_contents (snd (nested O C fs d)) false l) /\ (forall p, S_pattern (fst (nested O C fs d)) p).
Proof.
  induction d as [|d [IH1 IH2]].
  - split; [intros l c e ds st Hok HG HA W HT HC HF HS HN HI HR HE HM; exact I | intros p c e ov st Hok HA W HT HF HS HN HI HR; exact I].
  - cbn [nested]. destruct (nested_ok O C fs Hfs d) as [Hri Hrp]. destruct (nested O C fs d) as [rp ri] eqn:En. cbn [fst snd] in *. split.
    + intros l c e ds st Hok HG HA W HT HC HF HS HN HI HR HE HM. unfold compile_contents.
      apply (contents_safe rp ri Hri Hrp false l); try assumption. apply Forall_forall. intros g _. apply (main_safe rp ri Hri Hrp IH1 IH2).
    + apply (main_safe rp ri Hri Hrp IH1 IH2).
Qed.

(** ** the search for references without definition *)
Lemma check_safe cs (S : nat -> Prop) : (forall r, S r -> exists R, snd (nth r cs ([], None)) = Some R /\ refs_in S (rule_pattern R)) ->
  forall d p seen, refs_in S p -> safe (check_refs cs d seen p) (fun _ => True).
Proof.
  intros HS. assert (HL : forall (f : list nat -> mpat -> fres rerror (list nat)) l, Forall (fun p => forall seen, refs_in S p -> safe (f seen p) (fun _ => True)) l ->
    forall seen, (forall r, In r (flat_map mrefs l) -> S r) -> safe (check_all f seen l) (fun _ => True)).
  { intros f l. induction 1 as [|x l Hx Hl IH]; intros seen Hr; cbn [check_all]; [exact I|].
    assert (K : safe (f seen x) (fun _ => True)) by (apply Hx; intros r Hi; apply Hr; cbn; apply in_app_iff; left; exact Hi).
    destruct (f seen x) as [[s1|?]|?|]; try contradiction; cbn; [|exact I]. apply IH. intros r Hi. apply Hr. cbn. apply in_app_iff; right; exact Hi. }
  induction d as [d IHd] using lt_wf_ind.
  induction p as [l IHl|l IHl|l IHl|p IHp| | | |p IHp|p IHp|p IHp|nc p IHp|nc p IHp|r|v|dt ex IHe|p IHp] using mpat_ind'; intros seen Hr; rewrite check_eq;
    try exact I; try exact (IHp seen Hr); try (apply HL; assumption).
  - destruct (in_dec Nat.eq_dec r seen) as [|Hi]; [exact I|]. destruct (HS r (Hr r (or_introl eq_refl))) as (R & E & HR).
    revert E. match goal with |- snd ?x = _ -> _ => set (y := x); change (nth r cs _) with y end. destruct y as [nm d0]. cbn [snd]. intros ->. destruct d as [|d]; [exact I|]. apply IHd; [lia | exact HR].
  - destruct ex as [e|]; [apply (IHe e eq_refl); exact Hr | exact I].
Qed.
Lemma compile_safe d name : correct O C fs name -> safe (compile_grammar O C fs d name) (fun _ => True).
Proof.
  intros (_ & Hcyc & Hff0 & Hff & Htop). unfold top_fine in Htop. destruct (fs name) as [s|] eqn:Es; [|contradiction].
  unfold compile_grammar. eapply safe_step; [unfold get_schema; rewrite Es; reflexivity|]. eapply safe_step; [reflexivity|].
  set (st1 := Cst _ (_ ++ _) _ _). cbn [tables empty_cst List.length] in *.
  assert (HL1 : forall t n, look st1 t n = None) by (intros [|[|t]] n; reflexivity).
  assert (W1 : wf st1) by (split; intros t n; intros; rewrite HL1 in *; discriminate).
  assert (HR1 : cellrefs st1) by (split; [intros [|[|t]]; constructor | intros [|r] R H; discriminate H]).
  destruct (nested_ok O C fs Hfs d) as [Hri Hrp]. pose proof (nested_safe d) as [Hsafe Hsafe_p]. destruct (nested O C fs d) as [rp ri] eqn:En. cbn [fst snd] in Hri, Hrp, Hsafe, Hsafe_p.
  destruct (Hfs _ _ Es) as [Dok Tok]. destruct (Hff0 s eq_refl) as [Dfine Tfine].
  destruct (declared_safe (XRoot name 0 initial_ns initial_dts) (s_decls s) st1 I eq_refl eq_refl Dfine) as (ns & dt & Ed & Hsees).
  destruct (declared_agrees name (s_decls s) (XRoot name 0 initial_ns initial_dts) st1 _ _ I eq_refl eq_refl eq_refl Dok Ed) as (_ & _ & HA).
  cbn [with_decls] in Ed, Hsees, HA. set (c := XRoot name 0 ns dt) in *.
  assert (HT : tabs_in st1 c) by (intros t [<-|[]]; apply Nat.lt_0_1).
  assert (HC : chain_in st1 c) by (intros o []).
  assert (Hinc : IncOK c name (fun r h => mentioned r h s)).
  { intros r h f' Hh Hr. split; [intros s' Hs'; eapply (Hff 0); [constructor | exact Es | exact Hh | exact Hr | exact Hs']|]. intros k f'' Hc.
    assert (HO : Opens fs name f') by (exists s, r, h; auto). pose proof (Trail_S fs _ _ _ _ HO Hc) as Hch.
    split; [intros [] | split; [intros j; eapply Hcyc; exact Hch | intros s2 r2 h2 f3 s3; eapply Hff; exact Hch]]. }
  assert (Hres : safe (compile_schema_with (compile_pattern O C fs rp ri) (compile_contents O C fs rp ri) (XRoot name 0 initial_ns initial_dts) s st1)
    (fun r => fst r = c /\ cellrefs (snd r) /\ closed 1 (snd r) /\ content (snd r) 0 (lit "start") <> None /\ forall n x, look (snd r) 0 n = Some x -> content (snd r) 0 n <> None)).
  { unfold compile_schema_with. eapply safe_step; [exact Ed|]. destruct s as [sd [p|l]]; cbn [s_top s_decls is_include c] in *.
    - destruct Htop as [Hfine Hnames].
      assert (HP : safe (compile_pattern O C fs rp ri c p st1) (fun r => EP c (fun k n => Names fs name k n p) st1 (fst r) (snd r))).
      { apply (proj1 (main_safe rp ri Hri Hrp Hsafe Hsafe_p) p c (FEnv name sd []) false st1); try assumption.
        - intros k n K. destruct (Hnames k n K) as [K' _]. discriminate K'.
        - eapply IncOK_sub; [reflexivity | | exact Hinc]. intros r h K. apply mentioned_pattern; exact K. }
      eapply safe_bind; [exact HP|]. intros X st2 H2 [(S1 & S2 & S3) Hg]. cbn [fst snd] in *.
      apply (mainP rp ri Hri Hrp p c (FEnv name sd [])) in H2; try assumption. destruct H2 as (P1 & P2 & _).
      assert (HT2 : tabs_in st2 c) by (eapply tabs_in_ext; eassumption).
      assert (E2 : content st2 0 (lit "start") = None).
      { destruct P2 as (_ & _ & P2). rewrite P2; [reflexivity | apply Nat.lt_0_1 | intros []]. }
      assert (HD : safe (define c (lit "start") (AssignCombine None X) st2) (fun r => DPost c (fun _ _ => False) [lit "start"] st2 (snd r))).
      { apply (define_safe c (lit "start") MAssign X I st2); try assumption; [intros o []|].
        intros _. exists []. split; [cbn; f_equal; symmetry; exact E2 | split; cbn; [lia | intros [K _]; destruct K as [K|[]]; discriminate K]]. }
      eapply safe_bind; [exact HD|]. intros [] st3 H3 (T & _). cbn [snd] in *. cbn.
      assert (H3' := H3). cbn [define c] in H3'.
      destruct (define_in_ok _ _ _ _ _ P1 (HT2 0 (or_introl eq_refl)) H3') as (W3 & X3 & V3 & K3).
      assert (E3 : content st3 0 (lit "start") <> None).
      { specialize (K3 (lit "start")). rewrite E2, str_eqb_refl in K3. cbn [merge_all SchemaCompile.merge fbind rbind fok] in K3. intros K. rewrite K in K3. discriminate K3. }
      destruct (Step_trans c _ _ _ _ st1 st2 st3 HT (ext_mono [] [owner c] _ _ ltac:(intros ? []) P2) X3 (conj S1 (conj S2 S3)) T) as (T1 & T2 & T3).
      split; [reflexivity|]. split; [exact T3|]. split; [exact T2|]. split; [exact E3|].
      intros n x Hx. destruct (T1 0 n x Nat.lt_0_1 Hx) as [K|[(k & _ & [K|[]])|[_ K]]].
      + rewrite HL1 in K. discriminate K.
      + destruct (Hnames k n K) as [K' _]. discriminate K'.
      + cbn in K. destruct K as [<-|[]]. exact E3.
    - destruct Htop as ((ds & HE & Hcomb & Hstart & Hn0) & Hn1). cbn [fe_path] in Hn0.
      assert (HP : safe (compile_contents O C fs rp ri c l st1) (fun r => DPost c (NamesL name l) (names_of ds) st1 (snd r))).
      { unfold compile_contents. apply (contents_safe rp ri Hri Hrp false l ltac:(apply Forall_forall; intros g _; apply (main_safe rp ri Hri Hrp Hsafe Hsafe_p)) c (FEnv name sd []) ds st1); try assumption; try exact I.
        - intros k n (g & K1 & K2). destruct k as [|k]; [|exfalso; eapply Hn1; eassumption]. split; [exists 0; auto | intros K; discriminate K].
        - eapply IncOK_sub; [reflexivity | | exact Hinc]. intros r h (g & K1 & K2). eapply mentioned_contents; [constructor | exact K1 | exact K2].
        - intros n _. exists []. split; [reflexivity | apply Hcomb]. }
      eapply safe_bind; [exact HP|]. intros [] st2 H2 ((T1 & T2 & T3) & _). cbn [snd] in *. cbn.
      unfold compile_contents in H2. apply (contents_iter O C fs rp ri l ltac:(apply Forall_forall; intros; apply (mainC rp ri Hri Hrp)) c (FEnv name sd [])) in H2; try assumption; try exact I.
      destruct H2 as (dx & Edx & (A1 & A2 & A3 & A4 & A5)). apply Edx in HE. subst ds.
      assert (A5' : forall n, merged n None dx = fok (content st2 0 n)) by (intros n; exact (A5 n)).
      split; [reflexivity|]. split; [exact T3|]. split; [exact T2|]. split; [eapply named_content; [apply A5' | exact Hstart]|].
      intros n x Hx. eapply named_content; [apply A5'|]. destruct (T1 0 n x Nat.lt_0_1 Hx) as [K|[(k & K1 & (g & K2 & K3))|[_ K]]].
      + rewrite HL1 in K. discriminate K.
      + destruct k as [|k]; [apply (Hn0 g n K2 K3); left; reflexivity | exfalso; eapply Hn1; eassumption].
      + exact K. }
  eapply safe_bind; [exact Hres|]. clear Hres. intros c' st2 _ (Ec & HR & Hcl & Hst & Hall). cbn [fst snd] in *. subst c'. cbn [table_of c].
  eapply safe_step; [unfold undefined_in; reflexivity|].
  destruct (find _ (nth 0 (tables st2) [])) as [[n x]|] eqn:Ef.
  { exfalso. apply find_some in Ef. destruct Ef as [Hi Hb]. apply (assoc_nodup n _ x (proj1 HR 0)) in Hi. fold (look st2 0 n) in Hi. apply (Hall n x) in Hi as K. unfold content in K. rewrite Hi in K.
    destruct (snd (nth x (cells st2) ([], None))); [discriminate Hb | congruence]. }
  cbn [option_map]. eapply safe_step; [unfold get_ref_in; reflexivity|]. fold (look st2 0 (lit "start")). unfold content in Hst. destruct (look st2 0 (lit "start")) as [r|] eqn:El; [|congruence].
  destruct (nth r (cells st2) ([], None)) as [nm [R|]] eqn:Er; [|exfalso; apply Hst; reflexivity].
  assert (HS : forall x, good st2 x -> exists R, snd (nth x (cells st2) ([], None)) = Some R /\ refs_in (good st2) (rule_pattern R)).
  { intros x (t & n & K1 & K2). assert (Hc : content st2 t n <> None).
    { destruct t as [|t]; [eapply Hall; exact K1|]. destruct (Hcl (S t) n x ltac:(lia) K1) as [->|K]; [specialize (K2 eq_refl); discriminate K2 | exact K]. }
    unfold content in Hc. rewrite K1 in Hc. destruct (snd (nth x (cells st2) ([], None))) as [R0|] eqn:E0; [|congruence]. exists R0. split; [reflexivity|]. eapply (proj2 HR); exact E0. }
  assert (K : safe (check_refs (cells st2) (S (List.length (cells st2))) [] (rule_pattern R)) (fun _ => True)).
  { apply (check_safe (cells st2) (good st2) HS). eapply (proj2 HR). rewrite Er. reflexivity. }
  destruct (check_refs _ _ _ _) as [[?|?]|?|]; try contradiction; exact I.
Qed.

Scheme oc_mut := Induction for occurs Sort Prop with oi_mut := Induction for occurs_in Sort Prop.
Combined Scheme occurs_mut from oc_mut, oi_mut.
Lemma contents_in f ds l g : contents_ok fs f ds l -> In g l -> content_ok fs f ds g.
Proof. induction l as [|x l IH]; cbn; intros H K; [destruct K | destruct K as [ -> | K]; [apply H | apply IH; [apply H | exact K]]]. Qed.
Lemma Trail_end m f f' f'' : Trail fs m f f' -> Opens fs f' f'' -> Trail fs (S m) f f''.
Proof. induction 1 as [|k a b c H _ IH]; intros K; [econstructor; [exact K | constructor] | econstructor; [exact H | apply IH; exact K]]. Qed.
(** an external bare grammar lies in the directory of the file that names it *)
Lemma external_dir f s h f' ds l : fs f = inl s -> file_occurs (SExternal h None) s -> resolve f (lit_value h) = Some f' -> fs f' = inl (Schema ds (TGrammar l)) -> same_dir f f'.
Proof.
  intros Hs Ho Hr Hs'. destruct (Hfs _ _ Hs) as [_ Hok].
  assert (HA : forall ds, (forall q p, occurs_in q p -> q = SExternal h None -> pat_ok fs f ds p -> ext_ok fs f ds h None) /\ (forall q g, occurs q g -> q = SExternal h None -> content_ok fs f ds g -> ext_ok fs f ds h None)).
  { intros ds0. assert (HP : forall q, q = SExternal h None -> (forall g, occurs q g -> content_ok fs f ds0 g -> ext_ok fs f ds0 h None) /\ (forall p, occurs_in q p -> pat_ok fs f ds0 p -> ext_ok fs f ds0 h None)).
    { intros q Eq. apply (occurs_mut q (fun g _ => content_ok fs f ds0 g -> ext_ok fs f ds0 h None) (fun p _ => pat_ok fs f ds0 p -> ext_ok fs f ds0 h None)).
      - intros n how p _ IH K. apply IH; exact K.
      - intros g l0 Hi _ IH K. apply IH. apply all_contents in K. eapply contents_in; eassumption.
      - intros h0 inh l0 n how p Hi _ IH [_ K]. apply IH. revert K Hi. clear. induction l0 as [|x l0 IH]; cbn; intros H K; [destruct K | destruct K as [ -> | K]; [apply H | apply IH; [apply H | exact K]]].
      - intros K. subst q. exact K.
      - intros p p' Hc _ IH K. apply IH. destruct Hc; cbn in K; first [exact K | apply K].
      - intros l0 g Hi _ IH K. apply IH. apply all_contents in K. eapply contents_in; eassumption. }
    split; intros q x Ho0 Eq; apply (HP q Eq); exact Ho0. }
  assert (HE : ext_ok fs f (s_decls s) h None).
  { destruct Ho as [d0 l0 g Hi Hg|d0 p Hp]; cbn in Hok; [eapply (proj2 (HA d0)); [exact Hg | reflexivity | eapply contents_in; eassumption] | eapply (proj1 (HA d0)); [exact Hp | reflexivity | exact Hok]]. }
  destruct HE as [_ HE]. specialize (HE f' _ Hr Hs'). apply HE.
Qed.
Theorem correct_compiles name : correct O C fs name -> exists r st, Main.settles (fun d => compile_grammar O C fs d name) (fok (r, st)).
Proof.
  intros H. pose proof H as ((L & Hcl) & Hcyc & _). assert (HL : In name L) by (apply (Hcl 0); constructor).
  set (R := fun home f => same_dir home f /\ In home L /\ In f L /\ exists m, Trail fs m name f).
  assert (Hop : forall home f s r h f', R home f -> fs f = inl s -> mentioned r h s -> resolve home (lit_value h) = Some f' -> Opens fs f f' /\ In f' L /\ exists m, Trail fs m name f').
  { intros home f s r h f' (D & _ & Hf & m & Hm) Hs Hh Hr. rewrite D in Hr. assert (HO : Opens fs f f') by (exists s, r, h; auto).
    pose proof (Trail_end m name f f' Hm HO) as Hm'. split; [exact HO|]. split; [eapply Hcl; exact Hm'|]. exists (S m). exact Hm'. }
  assert (Hbare : forall home n f f', SchemaTermExt.Bare fs home n f f' -> R home f -> R home f' /\ Trail fs n f f').
  { intros home n f f' HB. induction HB as [f|n f s l f1 ds k f2 Hs Ho Hr Hs1 HB IH]; intros HR; [split; [exact HR | constructor]|].
    destruct (Hop home f s RExternal l f1 HR Hs Ho Hr) as (K1 & K2 & K3). assert (HR1 : R home f1).
    { pose proof HR as (D & Hh & Hf & Hm). pose proof Hr as Hr0. rewrite D in Hr0. pose proof (external_dir f s l f1 ds k Hs Ho Hr0 Hs1) as D'. split; [intros x; rewrite D; apply D'|]. split; [exact Hh|]. split; [exact K2 | exact K3]. }
    destruct (IH HR1) as [M1 M2]. split; [exact M1 | econstructor; eassumption]. }
  set (D := List.length L * S (List.length L) + List.length L).
  assert (HN : NF (compile_grammar O C fs D name)).
  { apply (SchemaTermExt.compile_NF O C fs L (List.length L) R).
    - intros home f (_ & K1 & K2 & _). auto.
    - intros home f s HR Hs. assert (Hself : forall r h f', mentioned r h s -> resolve home (lit_value h) = Some f' -> R f' f').
      { intros r h f' Hh Hr. destruct (Hop home f s r h f' HR Hs Hh Hr) as (K1 & K2 & K3). split; [intros x; reflexivity | auto]. }
      split; [intros h f' Hh; apply (Hself RInclude h f' Hh)|]. intros h f' Hh Hr. split; [apply (Hself RExternal h f' Hh Hr)|]. intros ds l Es.
      apply (Hbare home 1 f f'); [|exact HR]. eapply SchemaTermExt.Ba_S; [exact Hs | exact Hh | exact Hr | exact Es | constructor].
    - apply SchemaTermExt.Bare_short; [intros home f (_ & _ & K & _); exact K | intros home n f f' HB HR; apply (Hbare home n f f' HB HR)|].
      intros home f n HR HB. destruct (Hbare _ _ _ _ HB HR) as [_ K]. destruct HR as (_ & _ & _ & m & Hm). eapply Hcyc; eassumption.
    - split; [intros x; reflexivity|]. split; [exact HL|]. split; [exact HL | exists 0; constructor].
    - apply Nat.le_refl. }
  pose proof (compile_safe D name H) as K. destruct (compile_grammar O C fs D name) as [[[r st]|?]|?|] eqn:E; try contradiction.
  exists r, st. exists D. intros m Hm. transitivity (compile_grammar O C fs D name); [|exact E]. apply compile_mono; [exact Hm | rewrite E; discriminate].
Qed.
Theorem refused_incorrect name d r : compile_grammar O C fs d name = r -> r <> OutOfFuel -> (forall x, r <> fok x) -> ~ correct O C fs name.
Proof. intros E H1 H2 K. apply (compile_safe d) in K. rewrite E in K. destruct r as [[x|?]|?|]; try contradiction; try (apply (H2 x); reflexivity); apply H1; reflexivity. Qed.
Theorem correct_means name : correct O C fs name -> exists r st, Main.settles (fun d => compile_grammar O C fs d name) (fok (r, st)) /\
  forall root, rng_valid O (cell_defs st) (start_of r st) root <-> schema_valid fs O C name root.
Proof.
  intros H. destruct (correct_compiles name H) as (r & st & [d Hd]). exists r, st. split; [exists d; exact Hd|]. apply (compiled_meaning O C fs Hfs d name r st). apply Hd. lia.
Qed.
End Main.
