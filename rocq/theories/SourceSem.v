(** * SourceSem: a pattern that is a translation of a source pattern matches what the source matches
    (proof machinery for C28, C29, C32). *)
From Coq Require Import Permutation String.
From Verif Require Import Base Datatype Facets Store Lang Compile Syntax SchemaCompile Spec SpecFacts SourceSpec SourceTr.

Definition look (st : cst) (t : nat) (n : str) : option nat := assoc n (nth t (tables st) []).
Definition content (st : cst) (t : nat) (n : str) : option drule :=
  match look st t n with Some r => snd (nth r (cells st) ([], None)) | None => None end.
Definition hx_of (n : str) (dx : list (sdef * mpat)) : list (method * mpat) :=
  map (fun p => (d_how (fst p), snd p)) (filter (fun p => is_named n (fst p)) dx).
Definition merged (n : str) (acc : option drule) (dx : list (sdef * mpat)) : fres rerror (option drule) := merge_all n acc (map hrule (hx_of n dx)).

Section Sem.
Variable fs : filesys.
Variable O : oracles.
Variable C : coracles.
Variable st : cst.

Inductive Tr : fenv -> list nat -> spat -> mpat -> Prop :=
| Tr_element e ts nc nc' p X : (forall q, in_class nc' q <-> in_snc e true nc q) -> Tr e ts p X -> Tr e ts (SElement nc p) (MElement nc' X)
| Tr_attribute e ts nc nc' p X : (forall q, in_class nc' q <-> in_snc e false nc q) -> Tr e ts p X -> Tr e ts (SAttribute nc p) (MAttribute nc' X)
| Tr_list e ts p X : Tr e ts p X -> Tr e ts (SList p) (MList X)
| Tr_mixed e ts p X : Tr e ts p X -> Tr e ts (SMixed p) (MMixed X)
| Tr_ident e t ts i r : look st t i = Some r -> Tr e (t :: ts) (SIdent i) (MRef r)
| Tr_parent e t t1 ts i r : look st t1 i = Some r -> Tr e (t :: t1 :: ts) (SParent i) (MRef r)
| Tr_empty e ts : Tr e ts SEmpty MEmpty
| Tr_text e ts : Tr e ts SText MText
| Tr_na e ts : Tr e ts SNotAllowed MNotAllowed
| Tr_grammar e ts l ds dx t R : (forall ds', Expand fs e l ds' <-> ds' = ds) -> map fst dx = ds ->
    Forall (fun p => Tr (d_env (fst p)) (t :: ts) (d_body (fst p)) (snd p)) dx ->
    (forall n, content st t n = None \/ merged n None dx = fok (content st t n)) ->
    merged (lit "start") None dx = fok (Some R) -> Tr e ts (SGrammar l) (rule_pattern R)
| Tr_group e ts p X : Tr e ts p X -> Tr e ts (SGroup p) X
| Tr_seq e ts p q X Y : Tr e ts p X -> Tr e ts q Y -> Tr e ts (SListPair p q) (MGroup (seq_members X ++ seq_members Y))
| Tr_inter e ts p q X Y : Tr e ts p X -> Tr e ts q Y -> Tr e ts (SInterleavePair p q) (MInterleave (inter_members X ++ inter_members Y))
| Tr_choice e ts p q X Y : Tr e ts p X -> Tr e ts q Y -> Tr e ts (SChoicePair p q) (MChoice (choice_members X ++ choice_members Y))
| Tr_optional e ts p X : Tr e ts p X -> Tr e ts (SOptional p) (MOptional X)
| Tr_zero e ts p X : Tr e ts p X -> Tr e ts (SZeroOrMore p) (MZeroOrMore X)
| Tr_one e ts p X : Tr e ts p X -> Tr e ts (SOneOrMore p) (MOneOrMore X)
| Tr_value e ts n v d x : (forall d', denotes_dt e (match n with Some n => n | None => SdToken end) d' <-> d' = d) ->
    Facets.datatype_value d (lit_value v) = Ok (inl x) -> Tr e ts (SValue n v) (MValue x)
| Tr_data e ts n ps d x : (forall d', denotes_dt e n d' <-> d' = d) -> Facets.datatype_name O C d (values_of ps) = Ok (inl x) ->
    Tr e ts (SData n ps None) (MData x None)
| Tr_except e ts n ps p d x X : (forall d', denotes_dt e n d' <-> d' = d) -> Facets.datatype_name O C d (values_of ps) = Ok (inl x) ->
    Tr e ts p X -> Tr e ts (SData n ps (Some p)) (MData x (Some X))
| Tr_external e e' ts h i p X : (forall e1 p1, External fs e h i e1 p1 <-> e1 = e' /\ p1 = p) -> Tr e' ts p X -> Tr e ts (SExternal h i) X.

Section Ind.
Variable P : fenv -> list nat -> spat -> mpat -> Prop.
Hypothesis H1 : forall e ts nc nc' p X, (forall q, in_class nc' q <-> in_snc e true nc q) -> Tr e ts p X -> P e ts p X -> P e ts (SElement nc p) (MElement nc' X).
Hypothesis H2 : forall e ts nc nc' p X, (forall q, in_class nc' q <-> in_snc e false nc q) -> Tr e ts p X -> P e ts p X -> P e ts (SAttribute nc p) (MAttribute nc' X).
Hypothesis H3 : forall e ts p X, Tr e ts p X -> P e ts p X -> P e ts (SList p) (MList X).
Hypothesis H4 : forall e ts p X, Tr e ts p X -> P e ts p X -> P e ts (SMixed p) (MMixed X).
Hypothesis H5 : forall e t ts i r, look st t i = Some r -> P e (t :: ts) (SIdent i) (MRef r).
Hypothesis H6 : forall e t t1 ts i r, look st t1 i = Some r -> P e (t :: t1 :: ts) (SParent i) (MRef r).
Hypothesis H7 : forall e ts, P e ts SEmpty MEmpty.
Hypothesis H8 : forall e ts, P e ts SText MText.
Hypothesis H9 : forall e ts, P e ts SNotAllowed MNotAllowed.
Hypothesis H10 : forall e ts l ds dx t R, (forall ds', Expand fs e l ds' <-> ds' = ds) -> map fst dx = ds ->
    Forall (fun p => Tr (d_env (fst p)) (t :: ts) (d_body (fst p)) (snd p)) dx ->
    Forall (fun p => P (d_env (fst p)) (t :: ts) (d_body (fst p)) (snd p)) dx ->
    (forall n, content st t n = None \/ merged n None dx = fok (content st t n)) ->
    merged (lit "start") None dx = fok (Some R) -> P e ts (SGrammar l) (rule_pattern R).
Hypothesis H11 : forall e ts p X, Tr e ts p X -> P e ts p X -> P e ts (SGroup p) X.
Hypothesis H12 : forall e ts p q X Y, Tr e ts p X -> P e ts p X -> Tr e ts q Y -> P e ts q Y -> P e ts (SListPair p q) (MGroup (seq_members X ++ seq_members Y)).
Hypothesis H13 : forall e ts p q X Y, Tr e ts p X -> P e ts p X -> Tr e ts q Y -> P e ts q Y -> P e ts (SInterleavePair p q) (MInterleave (inter_members X ++ inter_members Y)).
Hypothesis H14 : forall e ts p q X Y, Tr e ts p X -> P e ts p X -> Tr e ts q Y -> P e ts q Y -> P e ts (SChoicePair p q) (MChoice (choice_members X ++ choice_members Y)).
Hypothesis H15 : forall e ts p X, Tr e ts p X -> P e ts p X -> P e ts (SOptional p) (MOptional X).
Hypothesis H16 : forall e ts p X, Tr e ts p X -> P e ts p X -> P e ts (SZeroOrMore p) (MZeroOrMore X).
Hypothesis H17 : forall e ts p X, Tr e ts p X -> P e ts p X -> P e ts (SOneOrMore p) (MOneOrMore X).
Hypothesis H18 : forall e ts n v d x, (forall d', denotes_dt e (match n with Some n => n | None => SdToken end) d' <-> d' = d) ->
    Facets.datatype_value d (lit_value v) = Ok (inl x) -> P e ts (SValue n v) (MValue x).
Hypothesis H19 : forall e ts n ps d x, (forall d', denotes_dt e n d' <-> d' = d) -> Facets.datatype_name O C d (values_of ps) = Ok (inl x) ->
    P e ts (SData n ps None) (MData x None).
Hypothesis H20 : forall e ts n ps p d x X, (forall d', denotes_dt e n d' <-> d' = d) -> Facets.datatype_name O C d (values_of ps) = Ok (inl x) ->
    Tr e ts p X -> P e ts p X -> P e ts (SData n ps (Some p)) (MData x (Some X)).
Hypothesis H21 : forall e e' ts h i p X, (forall e1 p1, External fs e h i e1 p1 <-> e1 = e' /\ p1 = p) -> Tr e' ts p X -> P e' ts p X -> P e ts (SExternal h i) X.
Fixpoint Tr_ind' e ts p X (H : Tr e ts p X) {struct H} : P e ts p X :=
  match H in Tr e ts p X return P e ts p X with
  | Tr_element e ts nc nc' p X h t => H1 e ts nc nc' p X h t (Tr_ind' _ _ _ _ t)
  | Tr_attribute e ts nc nc' p X h t => H2 e ts nc nc' p X h t (Tr_ind' _ _ _ _ t)
  | Tr_list e ts p X t => H3 e ts p X t (Tr_ind' _ _ _ _ t)
  | Tr_mixed e ts p X t => H4 e ts p X t (Tr_ind' _ _ _ _ t)
  | Tr_ident e t ts i r h => H5 e t ts i r h
  | Tr_parent e t t1 ts i r h => H6 e t t1 ts i r h
  | Tr_empty e ts => H7 e ts
  | Tr_text e ts => H8 e ts
  | Tr_na e ts => H9 e ts
  | Tr_grammar e ts l ds dx t R h1 h2 h3 h4 h5 =>
      H10 e ts l ds dx t R h1 h2 h3
        ((fix go dx (h : Forall (fun p => Tr (d_env (fst p)) (t :: ts) (d_body (fst p)) (snd p)) dx) {struct h} :
            Forall (fun p => P (d_env (fst p)) (t :: ts) (d_body (fst p)) (snd p)) dx :=
            match h with
            | Forall_nil _ => Forall_nil _
            | Forall_cons x hx hl => Forall_cons x (Tr_ind' _ _ _ _ hx) (go _ hl)
            end) dx h3) h4 h5
  | Tr_group e ts p X t => H11 e ts p X t (Tr_ind' _ _ _ _ t)
  | Tr_seq e ts p q X Y t1 t2 => H12 e ts p q X Y t1 (Tr_ind' _ _ _ _ t1) t2 (Tr_ind' _ _ _ _ t2)
  | Tr_inter e ts p q X Y t1 t2 => H13 e ts p q X Y t1 (Tr_ind' _ _ _ _ t1) t2 (Tr_ind' _ _ _ _ t2)
  | Tr_choice e ts p q X Y t1 t2 => H14 e ts p q X Y t1 (Tr_ind' _ _ _ _ t1) t2 (Tr_ind' _ _ _ _ t2)
  | Tr_optional e ts p X t => H15 e ts p X t (Tr_ind' _ _ _ _ t)
  | Tr_zero e ts p X t => H16 e ts p X t (Tr_ind' _ _ _ _ t)
  | Tr_one e ts p X t => H17 e ts p X t (Tr_ind' _ _ _ _ t)
  | Tr_value e ts n v d x h1 h2 => H18 e ts n v d x h1 h2
  | Tr_data e ts n ps d x h1 h2 => H19 e ts n ps d x h1 h2
  | Tr_except e ts n ps p d x X h1 h2 t => H20 e ts n ps p d x X h1 h2 t (Tr_ind' _ _ _ _ t)
  | Tr_external e e' ts h i p X hh t => H21 e e' ts h i p X hh t (Tr_ind' _ _ _ _ t)
  end.
End Ind.

Lemma hx_in n dx h X : In (h, X) (hx_of n dx) -> exists d, In (d, X) dx /\ d_how d = h /\ In d (defs_named n (map fst dx)).
Proof.
  intros H. apply in_map_iff in H. destruct H as ([d Y] & E & H). cbn in E. injection E as <- <-. apply filter_In in H. destruct H as [H1 H2].
  exists d. split; [exact H1|]. split; [reflexivity|]. apply filter_In. split; [|exact H2]. apply in_map_iff. exists (d, Y); auto.
Qed.
Lemma hx_of_in n dx d : In d (defs_named n (map fst dx)) -> exists X, In (d, X) dx /\ In (d_how d, X) (hx_of n dx).
Proof.
  intros H. apply filter_In in H. destruct H as [H1 H2]. apply in_map_iff in H1. destruct H1 as ([d' X] & E & H1). cbn in E. subst d'.
  exists X. split; [exact H1|]. apply in_map_iff. exists (d, X). split; [reflexivity|]. apply filter_In; auto.
Qed.
Lemma hx_forall_how n dx h : Forall (fun x => fst x <> h) (hx_of n dx) <-> (forall d, In d (defs_named n (map fst dx)) -> d_how d <> h).
Proof.
  rewrite Forall_forall. split; intros H.
  - intros d Hd. destruct (hx_of_in _ _ _ Hd) as (X & _ & Hi). exact (H _ Hi).
  - intros [h' X] Hi. destruct (hx_in _ _ _ _ Hi) as (d & _ & <- & Hd). exact (H _ Hd).
Qed.
Lemma hx_forall_snd n dx (P : mpat -> Prop) : Forall (fun p => P (snd p)) dx -> Forall (fun x => P (snd x)) (hx_of n dx).
Proof. rewrite !Forall_forall. intros H [h X] Hi. destruct (hx_in _ _ _ _ Hi) as (d & Hd & _). exact (H _ Hd). Qed.
Lemma defs_named_map n dx : defs_named n (map fst dx) = map fst (filter (fun p : sdef * mpat => is_named n (fst p)) dx).
Proof.
  unfold defs_named. induction dx as [|[d X] dx IH]; [reflexivity|]. cbn. destruct (is_named n d); cbn; rewrite IH; reflexivity.
Qed.
Lemma hx_snd n dx : map snd (hx_of n dx) = map snd (filter (fun p : sdef * mpat => is_named n (fst p)) dx).
Proof. unfold hx_of. rewrite map_map. reflexivity. Qed.

Lemma merged_combined n dx R : merged n None dx = fok (Some R) -> combined (hx_of n dx) R.
Proof. intros H. exact (merge_all_combined n (hx_of n dx) (Some R) H). Qed.

Lemma members_nonnil_seq X : nonnil X -> seq_members X <> [].
Proof. destruct X as [k|k|k| | | | | | | | | | | | | ]; cbn; try discriminate. destruct k; [intros [] | discriminate]. Qed.
Lemma members_nonnil_inter X : nonnil X -> inter_members X <> [].
Proof. destruct X as [k|k|k| | | | | | | | | | | | | ]; cbn; try discriminate. destruct k; [intros [] | discriminate]. Qed.
Lemma members_nonnil_choice X : nonnil X -> choice_members X <> [].
Proof. destruct X as [k|k|k| | | | | | | | | | | | | ]; cbn; try discriminate. destruct k; [intros [] | discriminate]. Qed.
Lemma Tr_nonnil e ts p X : Tr e ts p X -> nonnil X.
Proof.
  intros H. induction H using Tr_ind'; try exact I; try assumption.
  - eapply combined_nonnil; [eapply merged_combined; eassumption|]. apply hx_forall_snd. assumption.
  - apply members_nonnil_seq in IHTr1. cbn. destruct (seq_members X); [contradiction | exact I].
  - apply members_nonnil_inter in IHTr1. cbn. destruct (inter_members X); [contradiction | exact I].
  - apply members_nonnil_choice in IHTr1. cbn. destruct (choice_members X); [contradiction | exact I].
Qed.

(** the grammars around a pattern and their tables *)
Inductive Holds : grams -> list nat -> Prop :=
| Ho_nil : Holds [] []
| Ho_cons g G t ts dx : Holds G ts -> map fst dx = g ->
    Forall (fun p => Tr (d_env (fst p)) (t :: ts) (d_body (fst p)) (snd p)) dx ->
    (forall n, content st t n = None \/ merged n None dx = fok (content st t n)) -> Holds (g :: G) (t :: ts).

(** *** references *)
Fixpoint mrefs (p : mpat) : list nat :=
  match p with
  | MChoice l | MInterleave l | MGroup l => flat_map mrefs l
  | MMixed q | MOptional q | MZeroOrMore q | MOneOrMore q | MAttribute _ q | MElement _ q | MList q => mrefs q
  | MRef r => [r]
  | MData _ (Some e) => mrefs e
  | _ => []
  end.
Variable S : nat -> Prop.
Definition refs_in (p : mpat) : Prop := forall r, In r (mrefs p) -> S r.
Lemma refs_members_seq X : mrefs (MGroup (seq_members X)) = mrefs X.
Proof. destruct X; cbn; try apply app_nil_r; reflexivity. Qed.
Lemma refs_members_inter X : mrefs (MInterleave (inter_members X)) = mrefs X.
Proof. destruct X; cbn; try apply app_nil_r; reflexivity. Qed.
Lemma refs_members_choice X : mrefs (MChoice (choice_members X)) = mrefs X.
Proof. destruct X; cbn; try apply app_nil_r; reflexivity. Qed.
Lemma flat_refs_choice X l : flat1 choice_members MChoice X l -> flat_map mrefs l = mrefs X.
Proof. intros [->|[->| ->]]; [cbn; apply app_nil_r | apply refs_members_choice | cbn; rewrite !app_nil_r; reflexivity]. Qed.
Lemma flat_refs_inter X l : flat1 inter_members MInterleave X l -> flat_map mrefs l = mrefs X.
Proof. intros [->|[->| ->]]; [cbn; apply app_nil_r | apply refs_members_inter | cbn; rewrite !app_nil_r; reflexivity]. Qed.
Lemma flat_map_concat' {A B} (f : A -> list B) ls : flat_map f (concat ls) = flat_map (flat_map f) ls.
Proof. induction ls as [|l ls IH]; [reflexivity|]. cbn. rewrite flat_map_app, IH. reflexivity. Qed.
Lemma combined_refs hx R : combined hx R -> mrefs (rule_pattern R) = flat_map (fun h => mrefs (snd h)) hx.
Proof.
  intros [X|h ls H1 H2 H3|h ls H1 H2 H3].
  - cbn. rewrite app_nil_r. reflexivity.
  - replace (rule_pattern (wrap h CrChoice (MChoice (concat ls)))) with (MChoice (concat ls)) by (unfold wrap; destruct (assigned h); reflexivity).
    cbn. rewrite flat_map_concat'. clear H1 H2. induction H3 as [|x l h ls Hl H3 IH]; [reflexivity|]. cbn. rewrite IH, (flat_refs_choice _ _ Hl). reflexivity.
  - replace (rule_pattern (wrap h CrInterleave (MInterleave (concat ls)))) with (MInterleave (concat ls)) by (unfold wrap; destruct (assigned h); reflexivity).
    cbn. rewrite flat_map_concat'. clear H1 H2. induction H3 as [|x l h ls Hl H3 IH]; [reflexivity|]. cbn. rewrite IH, (flat_refs_inter _ _ Hl). reflexivity.
Qed.
Lemma combined_refs_in hx R : combined hx R -> refs_in (rule_pattern R) -> Forall (fun h => refs_in (snd h)) hx.
Proof.
  intros HC HR. rewrite Forall_forall. intros h Hh r Hr. apply HR. rewrite (combined_refs _ _ HC). apply in_flat_map. exists h; auto.
Qed.
Lemma refs_in_app (p : mpat) l1 l2 : (forall r, In r (flat_map mrefs (l1 ++ l2)) -> S r) -> (forall r, In r (flat_map mrefs l1) -> S r) /\ (forall r, In r (flat_map mrefs l2) -> S r).
Proof. intros H. rewrite flat_map_app in H. split; intros r Hr; apply H; apply in_app_iff; auto. Qed.
Lemma refs_seq X Y : refs_in (MGroup (seq_members X ++ seq_members Y)) -> refs_in X /\ refs_in Y.
Proof. intros H. apply (refs_in_app X) in H. rewrite <- (refs_members_seq X) , <- (refs_members_seq Y) at 1 || idtac. destruct H as [H1 H2]. split; intros r Hr; [apply H1; rewrite <- (refs_members_seq X) in Hr | apply H2; rewrite <- (refs_members_seq Y) in Hr]; exact Hr. Qed.
Lemma refs_inter X Y : refs_in (MInterleave (inter_members X ++ inter_members Y)) -> refs_in X /\ refs_in Y.
Proof. intros H. apply (refs_in_app X) in H. destruct H as [H1 H2]. split; intros r Hr; [apply H1; rewrite <- (refs_members_inter X) in Hr | apply H2; rewrite <- (refs_members_inter Y) in Hr]; exact Hr. Qed.
Lemma refs_choice X Y : refs_in (MChoice (choice_members X ++ choice_members Y)) -> refs_in X /\ refs_in Y.
Proof. intros H. apply (refs_in_app X) in H. destruct H as [H1 H2]. split; intros r Hr; [apply H1; rewrite <- (refs_members_choice X) in Hr | apply H2; rewrite <- (refs_members_choice Y) in Hr]; exact Hr. Qed.

Hypothesis in_cells : forall t n r, look st t n = Some r -> r < List.length (cells st).
Hypothesis S_def : forall r, S r -> exists R, snd (nth r (cells st) ([], None)) = Some R /\ refs_in (rule_pattern R).
Notation defs := (cell_defs st).
Lemma deref_look t n r : look st t n = Some r -> S r -> exists R, content st t n = Some R /\ deref defs r = Some (rule_pattern R) /\ refs_in (rule_pattern R).
Proof.
  intros H HS. destruct (S_def r HS) as (R & HR & Hin). exists R. unfold content. rewrite H. split; [exact HR|]. split; [|exact Hin].
  apply in_cells in H. unfold deref, cell_defs. rewrite nth_error_map.
  rewrite (nth_error_nth' (cells st) ([], None) H). cbn. rewrite HR. reflexivity.
Qed.

Variable w3 : bool.
Notation SM := (SM fs O C w3).
Notation SN := (SN fs O C w3).
Notation SI := (SI fs O C w3).
Notation SW := (SW fs O C w3).
Notation SX := (SX fs O C).
Notation SXN := (SXN fs O C).
Notation SXD := (SXD fs O C).
Notation MH := (MH O defs w3).
Notation XH := (XH O defs).
Notation M := (Spec.M O defs w3).
Notation XM := (Spec.XM O defs).
Definition Trs (t : nat) (ts : list nat) (dx : list (sdef * mpat)) : Prop := Forall (fun p => Tr (d_env (fst p)) (t :: ts) (d_body (fst p)) (snd p)) dx.
Lemma Trs_nonnil n t ts dx : Trs t ts dx -> Forall (fun h => nonnil (snd h)) (hx_of n dx).
Proof. intros HF. apply hx_forall_snd. unfold Trs in HF. rewrite Forall_forall in HF |- *. intros q Hq. eapply Tr_nonnil, HF, Hq. Qed.
Lemma refs_pairs n dx : Forall (fun h => refs_in (snd h)) (hx_of n dx) -> Forall (fun p => refs_in (snd p)) (filter (fun p : sdef * mpat => is_named n (fst p)) dx).
Proof. unfold hx_of. intros H. rewrite Forall_map in H. exact H. Qed.

(** *** from the compiled pattern to the source *)
Lemma or_SXD G n0 (dx : list (sdef * mpat)) s b : Forall (fun p => forall b, XH n0 (snd p) s b -> SX (d_env (fst p)) G (d_body (fst p)) s b) dx ->
  or_all (fun X b => XH n0 X s b) (map snd dx) b -> SXD G (map fst dx) s b.
Proof.
  revert b. induction dx as [|[d X] dx IH]; intros b HF H; [inversion H|]. inversion HF as [|? ? F1 F2]; subst. cbn in F1.
  destruct dx as [|[d' X'] dx].
  - inversion H; subst. apply SXD_one. apply F1; assumption.
  - cbn in H. inversion H; subst. apply SXD_more; [apply F1; assumption|]. apply IH; assumption.
Qed.
Lemma inter_SI G n0 (dx : list (sdef * mpat)) a m : Forall (fun p => forall a m, MH n0 a m (snd p) -> SM (d_env (fst p)) G a m (d_body (fst p))) dx ->
  inter_all (MH n0) a m (map snd dx) -> SI G a m (map fst dx).
Proof.
  revert a m. induction dx as [|[d X] dx IH]; intros a m HF H; [inversion H|]. inversion HF as [|? ? F1 F2]; subst. cbn in F1.
  destruct dx as [|[d' X'] dx].
  - inversion H; subst. apply SI_one. apply F1; assumption.
  - cbn in H. inversion H; subst. eapply SI_more; [eassumption | eassumption | apply F1; assumption|]. apply IH; assumption.
Qed.
(** a name: its definitions, combined *)
Lemma name_x n0 n t ts dx R G : Holds (map fst dx :: G) (t :: ts) -> Trs t ts dx -> merged n None dx = fok (Some R) -> refs_in (rule_pattern R) ->
  forall s b, (forall q, In q dx -> refs_in (snd q) -> forall b, XH n0 (snd q) s b -> SX (d_env (fst q)) (map fst dx :: G) (d_body (fst q)) s b) ->
  XH n0 (rule_pattern R) s b -> SXN (map fst dx :: G) n s b.
Proof.
  intros HG HF HC HR s b IH H. apply merged_combined in HC. pose proof (combined_refs_in _ _ HC HR) as HR'.
  apply (combined_xh O defs n0 _ R s b HC (Trs_nonnil n t ts dx HF)) in H. destruct H as [K1 K2]. constructor; [apply hx_forall_how; exact K1|].
  rewrite defs_named_map. rewrite hx_snd in K2. eapply or_SXD; [|exact K2]. apply refs_pairs in HR'.
  rewrite Forall_forall in HR' |- *. intros q Hq. pose proof (HR' q Hq) as Hr. apply filter_In in Hq. destruct Hq as [Hq _]. intros b' Hb. exact (IH q Hq Hr b' Hb).
Qed.
Lemma name_m n0 n t ts dx R G : Holds (map fst dx :: G) (t :: ts) -> Trs t ts dx -> merged n None dx = fok (Some R) -> refs_in (rule_pattern R) ->
  forall a m, (forall q, In q dx -> refs_in (snd q) -> forall a m, MH n0 a m (snd q) -> SM (d_env (fst q)) (map fst dx :: G) a m (d_body (fst q))) ->
  MH n0 a m (rule_pattern R) -> SN (map fst dx :: G) a m n.
Proof.
  intros HG HF HC HR a m IH H. apply merged_combined in HC. pose proof (combined_refs_in _ _ HC HR) as HR'.
  apply (combined_h O defs w3 n0 _ R a m HC (Trs_nonnil n t ts dx HF)) in H. destruct H as [[K1 (h & Hh & K2)]|[K1 K2]].
  - destruct h as [h X]. destruct (hx_in _ _ _ _ Hh) as (d & Hd & Ed & Hn). eapply SN_choice; [apply hx_forall_how; exact K1 | exact Hn|].
    apply (IH (d, X) Hd); [rewrite Forall_forall in HR'; exact (HR' _ Hh) | exact K2].
  - apply SN_interleave; [apply hx_forall_how; exact K1|]. rewrite defs_named_map. rewrite hx_snd in K2. eapply inter_SI; [|exact K2]. apply refs_pairs in HR'.
    rewrite Forall_forall in HR' |- *. intros q Hq. pose proof (HR' q Hq) as Hr. apply filter_In in Hq. destruct Hq as [Hq _]. intros a' m' Hb. exact (IH q Hq Hr a' m' Hb).
Qed.
Lemma XH_SX n : forall e ts p X, Tr e ts p X -> forall G, Holds G ts -> refs_in X -> forall s b, XH n X s b -> SX e G p s b.
Proof.
  induction n as [|n IHn]; [intros e ts p X _ G _ _ s b []|].
  assert (HN : forall i t ts r G, look st t i = Some r -> S r -> Holds G (t :: ts) -> forall s b, XH (Datatypes.S n) (MRef r) s b -> SXN G i s b).
  { intros i t ts r G Hl HS HG s b H. cbn [SourceTr.XH] in H. destruct H as (Y & HY & H). destruct (deref_look _ _ _ Hl HS) as (R & HC & HD & HR). rewrite HD in HY. injection HY as <-.
    pose proof HG as HG0. inversion HG as [|g G' t' ts' dx HG' E HF HCt]; subst. specialize (HCt i). rewrite HC in HCt. destruct HCt as [HCt|HCt]; [discriminate|].
    eapply name_x; [exact HG0 | exact HF | exact HCt | exact HR | | exact H]. intros q Hq Hr b' Hb. rewrite Forall_forall in HF. eapply IHn; [apply HF; exact Hq | exact HG0 | exact Hr | exact Hb]. }
  intros e ts p X HT. induction HT using Tr_ind'; intros G HG HR s b HX; try (cbn [SourceTr.XH] in HX; contradiction).
  - apply SX_ident. eapply HN; try eassumption. apply HR; left; reflexivity.
  - inversion HG as [|g G' t' ts' dx HG' E HF HCt]; subst. apply SX_parent. eapply HN; try eassumption. apply HR; left; reflexivity.
  - cbn [SourceTr.XH] in HX. subst b. apply SX_na.
  - subst ds. eapply SX_grammar; [apply H; reflexivity|]. assert (HG' : Holds (map fst dx :: G) (t :: ts)) by (econstructor; eauto).
    eapply name_x; [exact HG' | eassumption | eassumption | exact HR | | exact HX]. intros q Hq Hr b' Hb. match goal with H : Forall (fun p => forall G, _) dx |- _ => rewrite Forall_forall in H; exact (H q Hq _ HG' Hr _ _ Hb) end.
  - apply SX_group. eauto.
  - apply refs_choice in HR. destruct HR as [R1 R2]. apply xh_split in HX; [|apply members_nonnil_choice; eapply Tr_nonnil; eassumption..].
    destruct HX as (b1 & b2 & K1 & K2 & ->). apply SX_choice; [apply IHHT1 | apply IHHT2]; auto; eapply xh_mem; eassumption.
  - cbn [SourceTr.XH] in HX. eapply SX_value; [apply H; reflexivity | eassumption | exact HX].
  - cbn [SourceTr.XH] in HX. eapply SX_data; [apply H; reflexivity | eassumption | exact HX].
  - cbn [SourceTr.XH] in HX. destruct HX as (b1 & b2 & K1 & K2 & ->). eapply SX_except; [apply H; reflexivity | eassumption | exact K1|]. eapply IHn; eassumption.
  - eapply SX_external; [apply H; split; reflexivity | eauto].
Qed.

Lemma WH_SW n e p X G : (forall a m, MH n a m X -> SM e G a m p) -> forall a m, WH w3 (MH n) a m X -> SW e G a m p.
Proof.
  intros IH a m [H|[(s & -> & Hb & H)|(Hw & -> & H)]]; [apply SW_1 | apply SW_2; [exact Hb|] | apply SW_3; [exact Hw|]]; apply IH; exact H.
Qed.
Lemma MH_SM n : forall e ts p X, Tr e ts p X -> forall G, Holds G ts -> refs_in X -> forall a m, MH n a m X -> SM e G a m p.
Proof.
  induction n as [|n IHn]; [intros e ts p X _ G _ _ s b []|].
  assert (HN : forall i t ts r G, look st t i = Some r -> S r -> Holds G (t :: ts) -> forall a m, MH (Datatypes.S n) a m (MRef r) -> SN G a m i).
  { intros i t ts r G Hl HS HG a m H. cbn [SourceTr.MH] in H. destruct H as (Y & HY & H). destruct (deref_look _ _ _ Hl HS) as (R & HC & HD & HR). rewrite HD in HY. injection HY as <-.
    pose proof HG as HG0. inversion HG as [|g G' t' ts' dx HG' E HF HCt]; subst. specialize (HCt i). rewrite HC in HCt. destruct HCt as [HCt|HCt]; [discriminate|].
    eapply name_m; [exact HG0 | exact HF | exact HCt | exact HR | | exact H]. intros q Hq Hr a' m' Hb. rewrite Forall_forall in HF. eapply IHn; [apply HF; exact Hq | exact HG0 | exact Hr | exact Hb]. }
  intros e ts p X HT. induction HT using Tr_ind'; intros G HG HR a m HX.
  - cbn [SourceTr.MH] in HX. destruct HX as (nm & a' & k & w1 & w2 & -> & -> & K1 & K2 & K3 & K4 & K5). constructor; auto; [apply H; exact K1|].
    eapply WH_SW; [| exact K3]. intros. eapply IHn; eassumption.
  - cbn [SourceTr.MH] in HX. destruct HX as (x & -> & -> & K1 & K2). constructor; [apply H; exact K1|].
    eapply WH_SW; [| exact K2]. intros. eapply IHn; eassumption.
  - cbn [SourceTr.MH] in HX. destruct HX as (s & -> & -> & K). apply SM_tokens. eapply IHn; eassumption.
  - cbn [SourceTr.MH] in HX. destruct HX as (m1 & m2 & K1 & K2 & K3). eapply SM_mixed; [exact K1 | eapply IHn; eassumption | exact K3].
  - apply SM_ident. eapply HN; try eassumption. apply HR; left; reflexivity.
  - inversion HG as [|g G' t' ts' dx HG' E HF HCt]; subst. apply SM_parent. eapply HN; try eassumption. apply HR; left; reflexivity.
  - cbn [SourceTr.MH] in HX. destruct HX as [-> ->]. apply SM_empty.
  - cbn [SourceTr.MH] in HX. destruct HX as [-> K]. apply SM_text. exact K.
  - destruct HX.
  - subst ds. eapply SM_grammar; [apply H; reflexivity|]. assert (HG' : Holds (map fst dx :: G) (t :: ts)) by (econstructor; eauto).
    eapply name_m; [exact HG' | eassumption | eassumption | exact HR | | exact HX]. intros q Hq Hr a' m' Hb. match goal with H : Forall (fun p => forall G, _) dx |- _ => rewrite Forall_forall in H; exact (H q Hq _ HG' Hr _ _ Hb) end.
  - apply SM_group. eauto.
  - apply refs_seq in HR. destruct HR as [R1 R2]. apply group_split in HX; [|apply members_nonnil_seq; eapply Tr_nonnil; eassumption..].
    destruct HX as (a1 & a2 & m1 & m2 & K1 & -> & K2 & K3). eapply SM_list; [exact K1 | apply IHHT1 | apply IHHT2]; auto; eapply h_group_mem; eassumption.
  - apply refs_inter in HR. destruct HR as [R1 R2]. apply inter_split in HX; [|apply members_nonnil_inter; eapply Tr_nonnil; eassumption..].
    destruct HX as (a1 & a2 & m1 & m2 & K1 & K0 & K2 & K3). eapply SM_inter; [exact K1 | exact K0 | apply IHHT1 | apply IHHT2]; auto; eapply h_inter_mem; eassumption.
  - apply refs_choice in HR. destruct HR as [R1 R2]. cbn [SourceTr.MH] in HX. destruct HX as (x & Hi & Hx). apply in_app_iff in Hi. destruct Hi as [Hi|Hi].
    + apply SM_choice_l. apply IHHT1; auto. eapply h_choice_mem; eassumption.
    + apply SM_choice_r. apply IHHT2; auto. eapply h_choice_mem; eassumption.
  - cbn [SourceTr.MH] in HX. destruct HX as [K|[-> ->]]; [apply SM_some; eapply IHn; eassumption | apply SM_none].
  - cbn [SourceTr.MH] in HX. destruct HX as [K|[-> ->]]; [apply SM_plus; eapply IHn; [apply Tr_one | | |]; eassumption | apply SM_zero].
  - cbn [SourceTr.MH] in HX. destruct HX as [K|(a1 & a2 & m1 & m2 & K1 & -> & K2 & K3)]; [apply SM_one; eapply IHn; eassumption|].
    eapply SM_more; [exact K1 | eapply IHn; eassumption | eapply IHn; [apply Tr_one | | |]; eassumption].
  - cbn [SourceTr.MH] in HX. destruct HX as (s & -> & -> & K). eapply SM_value; [apply H; reflexivity | eassumption | exact K].
  - cbn [SourceTr.MH] in HX. destruct HX as (s & -> & -> & K). eapply SM_data; [apply H; reflexivity | eassumption | exact K].
  - cbn [SourceTr.MH] in HX. destruct HX as (s & -> & -> & K & K'). eapply SM_except; [apply H; reflexivity | eassumption | exact K|]. eapply XH_SX; eassumption.
  - eapply SM_external; [apply H; split; reflexivity | eauto].
Qed.

(** *** from the source to the compiled pattern *)
Scheme SX_mind := Minimality for SourceSpec.SX Sort Prop with SXN_mind := Minimality for SourceSpec.SXN Sort Prop with SXD_mind := Minimality for SourceSpec.SXD Sort Prop.
Combined Scheme SX_mutual from SX_mind, SXN_mind, SXD_mind.
Scheme SM_mind := Minimality for SourceSpec.SM Sort Prop with SW_mind := Minimality for SourceSpec.SW Sort Prop with SN_mind := Minimality for SourceSpec.SN Sort Prop with SI_mind := Minimality for SourceSpec.SI Sort Prop.
Combined Scheme SM_mutual from SM_mind, SW_mind, SN_mind, SI_mind.
Ltac tr_inv := match goal with H : Tr _ _ _ _ |- _ => inversion H; subst; clear H end.
Lemma denote_eq e n d d' : (forall d', denotes_dt e n d' <-> d' = d) -> denotes_dt e n d' -> d' = d.
Proof. intros H H'. apply H; exact H'. Qed.
Lemma name_back (n : str) G t ts r (Q : mpat -> Prop) :
  (forall g G', G = g :: G' -> forall dx R, map fst dx = g -> Trs t ts dx -> merged n None dx = fok (Some R) -> refs_in (rule_pattern R) -> Q (rule_pattern R)) ->
  Holds G (t :: ts) -> look st t n = Some r -> S r -> exists R, deref defs r = Some (rule_pattern R) /\ Q (rule_pattern R).
Proof.
  intros H HG Hl HS. destruct (deref_look _ _ _ Hl HS) as (R & HC & HD & HR). exists R. split; [exact HD|].
  inversion HG as [|g G' t' ts' dx HG' E HF HCt]; subst. specialize (HCt n). rewrite HC in HCt. destruct HCt as [HCt|HCt]; [discriminate|].
  eapply H; [reflexivity | reflexivity | exact HF | exact HCt | exact HR].
Qed.
Lemma SX_XM :
  (forall e G p s b, SX e G p s b -> forall ts X, Tr e ts p X -> Holds G ts -> refs_in X -> XM X s b) /\
  (forall G n s b, SXN G n s b -> forall g G', G = g :: G' -> forall t ts dx R, Holds G (t :: ts) -> map fst dx = g -> Trs t ts dx -> merged n None dx = fok (Some R) -> refs_in (rule_pattern R) -> XM (rule_pattern R) s b) /\
  (forall G ds s b, SXD G ds s b -> forall t ts dx, map fst dx = ds -> Trs t ts dx -> Holds G (t :: ts) -> Forall (fun p => refs_in (snd p)) dx -> or_all (fun X b => XM X s b) (map snd dx) b).
Proof.
  apply SX_mutual.
  - intros e G s ts X HT HG HR. inversion HT; subst. constructor.
  - intros e G p s b _ IH ts X HT HG HR. inversion HT; subst. eauto.
  - intros e G p q s b1 b2 _ IH1 _ IH2 ts X HT HG HR. inversion HT; subst. apply refs_choice in HR. destruct HR as [R1 R2].
    apply xm_join; [apply members_nonnil_choice; eapply Tr_nonnil; eassumption | |]; apply xm_mem; eauto.
  - intros e G n ps d x s b Hd Hx Hs ts X HT HG HR. inversion HT; subst. constructor. match goal with H : forall d', denotes_dt _ _ d' <-> _ |- _ => apply (denote_eq _ _ _ _ H) in Hd end. subst. congruence.
  - intros e G n ps p d x s b1 b2 Hd Hx Hs _ IH ts X HT HG HR. inversion HT; subst. match goal with H : forall d', denotes_dt _ _ d' <-> _ |- _ => apply (denote_eq _ _ _ _ H) in Hd end. subst. apply XM_except; [congruence | eauto].
  - intros e G n v d x s b Hd Hx Hs ts X HT HG HR. inversion HT; subst. constructor. match goal with H : forall d', denotes_dt _ _ d' <-> _ |- _ => apply (denote_eq _ _ _ _ H) in Hd end. subst. congruence.
  - intros e G i s b _ IH ts X HT HG HR. inversion HT; subst. destruct (name_back i G t ts0 r (fun Y => XM Y s b)) as (R & ?HR1 & ?HR2); auto; [|apply HR; left; reflexivity|econstructor; eassumption].
    intros g G' -> dx R. apply (IH g G' eq_refl t ts0 dx R HG).
  - intros e g G i s b _ IH ts X HT HG HR. inversion HT; subst. inversion HG; subst. destruct (name_back i G t1 ts0 r (fun Y => XM Y s b)) as (R & ?HR1 & ?HR2); auto; [|apply HR; left; reflexivity|econstructor; eassumption].
    intros g' G' -> dx' R. match goal with H : Holds (g' :: G') _ |- _ => apply (IH g' G' eq_refl t1 ts0 dx' R H) end.
  - intros e G l ds s b HE _ IH ts X HT HG HR. inversion HT; subst.
    match goal with H : forall ds', Expand _ _ _ ds' <-> _ |- _ => apply H in HE end. subst.
    eapply IH; [reflexivity | | reflexivity | eassumption | eassumption | exact HR]. econstructor; eauto.
  - intros e e' G h i p s b HE _ IH ts X HT HG HR. inversion HT; subst. match goal with H : forall e1 p1, External _ _ _ _ _ _ <-> _ |- _ => apply H in HE end. destruct HE as [-> ->]. eauto.
  - intros g G n s b HH _ IH g' G' E t ts dx R HG Hg HF HM HR. injection E as <- <-. subst g.
    pose proof (merged_combined _ _ _ HM) as HC. eapply combined_xm; [exact HC | eapply Trs_nonnil; exact HF | apply hx_forall_how; exact HH|].
    rewrite hx_snd. eapply IH; [symmetry; apply defs_named_map | | exact HG |].
    + unfold Trs in *. rewrite Forall_forall in HF |- *. intros q Hq. apply filter_In in Hq. apply HF, Hq.
    + apply refs_pairs. eapply combined_refs_in; eassumption.
  - intros G d s b _ IH t ts dx E HF HG HR. destruct dx as [|[d' X] [|q dx]]; try discriminate E. cbn in E. injection E as ->. inversion HF; subst. inversion HR; subst. apply Oa_one. eapply IH; eassumption.
  - intros G d d' ds s b1 b2 _ IH1 _ IH2 t ts dx E HF HG HR. destruct dx as [|[d1 X] [|[d2 X2] dx]]; try discriminate E. cbn in E. injection E as -> -> E. inversion HF; subst. inversion HR; subst.
    cbn. apply Oa_more; [eapply IH1; eassumption|]. apply (IH2 t ts ((d', X2) :: dx)); auto.
Qed.
Lemma SM_M :
  (forall e G a m p, SM e G a m p -> forall ts X, Tr e ts p X -> Holds G ts -> refs_in X -> M a m X) /\
  (forall e G a m p, SW e G a m p -> forall ts X, Tr e ts p X -> Holds G ts -> refs_in X -> Spec.W O defs w3 a m X) /\
  (forall G a m n, SN G a m n -> forall g G', G = g :: G' -> forall t ts dx R, Holds G (t :: ts) -> map fst dx = g -> Trs t ts dx -> merged n None dx = fok (Some R) -> refs_in (rule_pattern R) -> M a m (rule_pattern R)) /\
  (forall G a m ds, SI G a m ds -> forall t ts dx, map fst dx = ds -> Trs t ts dx -> Holds G (t :: ts) -> Forall (fun p => refs_in (snd p)) dx -> inter_all M a m (map snd dx)).
Proof.
  apply SM_mutual.
  - intros e G a m p _ IH ts X HT HG HR. inversion HT; subst. eauto.
  - intros e G a m p q _ IH ts X HT HG HR. inversion HT; subst. apply refs_choice in HR. destruct HR as [R1 R2]. eapply choice_mem; [apply incl_appl, incl_refl | eauto].
  - intros e G a m p q _ IH ts X HT HG HR. inversion HT; subst. apply refs_choice in HR. destruct HR as [R1 R2]. eapply choice_mem; [apply incl_appr, incl_refl | eauto].
  - intros e G a a1 a2 m1 m2 p q HP _ IH1 _ IH2 ts X HT HG HR. inversion HT; subst. apply refs_seq in HR. destruct HR as [R1 R2].
    eapply group_join; [apply members_nonnil_seq; eapply Tr_nonnil; eassumption | exact HP | apply group_mem; eauto | apply group_mem; eauto].
  - intros e G a a1 a2 m m1 m2 p q HP HM _ IH1 _ IH2 ts X HT HG HR. inversion HT; subst. apply refs_inter in HR. destruct HR as [R1 R2].
    eapply inter_join; [apply members_nonnil_inter; eapply Tr_nonnil; eassumption | exact HP | exact HM | apply inter_mem; eauto | apply inter_mem; eauto].
  - intros e G a m m1 m2 p HM _ IH Hm ts X HT HG HR. inversion HT; subst. apply M_mixed. eapply M_inter; [rewrite app_nil_r; reflexivity | exact HM | eauto |]. apply M_inter_one, M_text; exact Hm.
  - intros e G p ts X HT HG HR. inversion HT; subst. apply M_optional. eapply M_choice; [right; left; reflexivity | constructor].
  - intros e G a m p _ IH ts X HT HG HR. inversion HT; subst. apply M_optional. eapply M_choice; [left; reflexivity | eauto].
  - intros e G p ts X HT HG HR. inversion HT; subst. apply M_zero. eapply M_choice; [right; left; reflexivity | constructor].
  - intros e G a m p _ IH ts X HT HG HR. inversion HT; subst. apply M_zero. eapply M_choice; [left; reflexivity|]. eapply IH; [apply Tr_one; eassumption | exact HG | exact HR].
  - intros e G a m p _ IH ts X HT HG HR. inversion HT; subst. apply M_one. eauto.
  - intros e G a a1 a2 m1 m2 p HP _ IH1 _ IH2 ts X HT HG HR. pose proof HT as HT0. inversion HT; subst. eapply M_more; [exact HP | eauto | eauto].
  - intros e G ts X HT HG HR. inversion HT; subst. constructor.
  - intros e G m Hm ts X HT HG HR. inversion HT; subst. constructor; exact Hm.
  - intros e G nc p x Hn _ IH ts X HT HG HR. inversion HT; subst. constructor; [match goal with H : forall q, in_class _ q <-> _ |- _ => apply H; exact Hn end | eauto].
  - intros e G nc p nm a k w1 w2 Hn Hk _ IH Hw1 Hw2 ts X HT HG HR. inversion HT; subst. constructor; auto; [match goal with H : forall q, in_class _ q <-> _ |- _ => apply H; exact Hn end | eauto].
  - intros e G n ps d x s Hd Hx Hs ts X HT HG HR. inversion HT; subst. constructor. match goal with H : forall d', denotes_dt _ _ d' <-> _ |- _ => apply (denote_eq _ _ _ _ H) in Hd end. subst. congruence.
  - intros e G n ps p d x s Hd Hx Hs HX ts X HT HG HR. inversion HT; subst. match goal with H : forall d', denotes_dt _ _ d' <-> _ |- _ => apply (denote_eq _ _ _ _ H) in Hd end. subst. constructor; [congruence|].
    eapply (proj1 SX_XM); eassumption.
  - intros e G n v d x s Hd Hx Hs ts X HT HG HR. inversion HT; subst. constructor. match goal with H : forall d', denotes_dt _ _ d' <-> _ |- _ => apply (denote_eq _ _ _ _ H) in Hd end. subst. congruence.
  - intros e G p s _ IH ts X HT HG HR. inversion HT; subst. constructor. eauto.
  - intros e G a m i _ IH ts X HT HG HR. inversion HT; subst. destruct (name_back i G t ts0 r (fun Y => M a m Y)) as (R & ?HR1 & ?HR2); auto; [|apply HR; left; reflexivity|econstructor; eassumption].
    intros g G' -> dx R. apply (IH g G' eq_refl t ts0 dx R HG).
  - intros e g G a m i _ IH ts X HT HG HR. inversion HT; subst. inversion HG; subst. destruct (name_back i G t1 ts0 r (fun Y => M a m Y)) as (R & ?HR1 & ?HR2); auto; [|apply HR; left; reflexivity|econstructor; eassumption].
    intros g' G' -> dx' R. match goal with H : Holds (g' :: G') _ |- _ => apply (IH g' G' eq_refl t1 ts0 dx' R H) end.
  - intros e G a m l ds HE _ IH ts X HT HG HR. inversion HT; subst.
    match goal with H : forall ds', Expand _ _ _ ds' <-> _ |- _ => apply H in HE end. subst.
    eapply IH; [reflexivity | | reflexivity | eassumption | eassumption | exact HR]. econstructor; eauto.
  - intros e e' G a m h i p HE _ IH ts X HT HG HR. inversion HT; subst. match goal with H : forall e1 p1, External _ _ _ _ _ _ <-> _ |- _ => apply H in HE end. destruct HE as [-> ->]. eauto.
  - intros e G a m p _ IH ts X HT HG HR. apply W_1; eauto.
  - intros e G a s p Hb _ IH ts X HT HG HR. apply W_2; eauto.
  - intros e G a p Hw _ IH ts X HT HG HR. apply W_3; eauto.
  - intros g G a m n d HH Hi _ IH g' G' E t ts dx R HG Hg HF HM HR. injection E as <- <-. subst g.
    pose proof (merged_combined _ _ _ HM) as HC. destruct (hx_of_in _ _ _ Hi) as (X & Hd & Hx).
    eapply combined_choice; [exact HC | apply hx_forall_how; exact HH | exact Hx|]. cbn. unfold Trs in HF. rewrite Forall_forall in HF. pose proof (HF _ Hd) as HT. cbn in HT.
    pose proof (combined_refs_in _ _ HC HR) as HR'. rewrite Forall_forall in HR'. eapply IH; [exact HT | exact HG | exact (HR' _ Hx)].
  - intros g G a m n HH _ IH g' G' E t ts dx R HG Hg HF HM HR. injection E as <- <-. subst g.
    pose proof (merged_combined _ _ _ HM) as HC. eapply combined_inter; [exact HC | eapply Trs_nonnil; exact HF | apply hx_forall_how; exact HH|].
    rewrite hx_snd. eapply IH; [symmetry; apply defs_named_map | | exact HG |].
    + unfold Trs in *. rewrite Forall_forall in HF |- *. intros q Hq. apply filter_In in Hq. apply HF, Hq.
    + apply refs_pairs. eapply combined_refs_in; eassumption.
  - intros G a m d _ IH t ts dx E HF HG HR. destruct dx as [|[d' X] [|q dx]]; try discriminate E. cbn in E. injection E as ->. inversion HF; subst. inversion HR; subst. apply Ia_one. eapply IH; eassumption.
  - intros G a a1 a2 m m1 m2 d d' ds HP HM _ IH1 _ IH2 t ts dx E HF HG HR. destruct dx as [|[d1 X] [|[d2 X2] dx]]; try discriminate E. cbn in E. injection E as -> -> E. inversion HF; subst. inversion HR; subst.
    cbn. eapply Ia_more; [exact HP | exact HM | eapply IH1; eassumption|]. apply (IH2 t ts ((d', X2) :: dx)); auto.
Qed.
(** the definitions of a grammar match what the cell of a name matches *)
Lemma name_equiv g G t ts n r : Holds (g :: G) (t :: ts) -> look st t n = Some r -> S r -> forall a m, M a m (MRef r) <-> SN (g :: G) a m n.
Proof.
  intros HG Hl HS a m. destruct (deref_look _ _ _ Hl HS) as (R & HC & HD & HR).
  pose proof HG as HG0. inversion HG as [|g' G' t' ts' dx HG' E HF HCt]; subst. specialize (HCt n). rewrite HC in HCt. destruct HCt as [HCt|HCt]; [discriminate|].
  split.
  - intros H. apply (proj1 (MW_H O defs w3)) in H. destruct H as [[|k] H]; [destruct H|]. cbn [SourceTr.MH] in H. destruct H as (Y & HY & H). rewrite HD in HY. injection HY as <-.
    eapply name_m; [exact HG0 | exact HF | exact HCt | exact HR | | exact H]. intros q Hq Hr a' m' Hb. rewrite Forall_forall in HF. eapply MH_SM; [apply HF; exact Hq | exact HG0 | exact Hr | exact Hb].
  - intros H. econstructor; [exact HD|]. eapply (proj1 (proj2 (proj2 SM_M))); eauto.
Qed.
End Sem.
