(** * XmlCheck: the conditions of XmlScope.v can be tested: a program which answers yes only on documents in scope. *)
From Coq Require Import String.
From Verif Require Import Base Datatype DatatypeSpec Facets Syntax XmlSyntax RngXml XmlScope XmlBase XmlProof.
From Verif Require DatatypeProof.

Definition among_names (name : str) (l : list string) : bool := existsb (is_name name) l.
Lemma is_name_lit nm k : is_name (lit nm) k = true <-> nm = k.
Proof. rewrite DatatypeProof.is_name_true. split; [apply lit_inj | intros ->; reflexivity]. Qed.
Lemma among_lit nm l : among_names (lit nm) l = true <-> In nm l.
Proof.
  unfold among_names. rewrite existsb_exists. split.
  - intros (x & Hx & E). apply is_name_lit in E. subst. exact Hx.
  - intros H. exists nm. split; [exact H | apply is_name_lit; reflexivity].
Qed.
(** a test which is needed for certain elements only *)
Definition for_names (name : str) (l : list string) (b : bool) : bool := negb (among_names name l) || b.
Definition but_names (name : str) (l : list string) (b : bool) : bool := among_names name l || b.
Lemma for_names_lit nm l b : for_names (lit nm) l b = true -> In nm l -> b = true.
Proof. unfold for_names. intros H Hi. apply among_lit in Hi. rewrite Hi in H. exact H. Qed.
Lemma for_one nm k b : for_names (lit nm) [k] b = true -> nm = k -> b = true.
Proof. intros H ->. exact (for_names_lit _ _ _ H (or_introl eq_refl)). Qed.
Lemma but_names_lit nm l b : but_names (lit nm) l b = true -> ~ In nm l -> b = true.
Proof. unfold but_names. intros H Hi. destruct (among_names (lit nm) l) eqn:E; [apply among_lit in E; contradiction | exact H]. Qed.

Fixpoint nodupb {A} (eqb : A -> A -> bool) (l : list A) : bool := match l with [] => true | x :: l' => negb (existsb (eqb x) l') && nodupb eqb l' end.
Lemma nodupb_ok {A} (eqb : A -> A -> bool) : (forall x, eqb x x = true) -> forall l, nodupb eqb l = true -> NoDup l.
Proof.
  intros He l. induction l as [|x l IH]; cbn [nodupb]; [constructor|]. intros H. apply andb_true_iff in H as [H1 H2]. constructor; [|apply IH; exact H2].
  intros Hi. apply negb_true_iff in H1. assert (X : existsb (eqb x) l = true) by (apply existsb_exists; eauto). congruence.
Qed.
Definition opt_eqb (a b : option str) : bool := match a, b with Some x, Some y => str_eqb x y | None, None => true | _, _ => false end.
Lemma opt_eqb_refl a : opt_eqb a a = true.
Proof. destruct a; [apply str_eqb_eq; reflexivity | reflexivity]. Qed.
Definition att_key_eqb (a b : option str * str) : bool := opt_eqb (fst a) (fst b) && str_eqb (snd a) (snd b).
Lemma att_key_refl a : att_key_eqb a a = true.
Proof. unfold att_key_eqb. rewrite opt_eqb_refl. apply str_eqb_eq. reflexivity. Qed.

Definition emptyb {A} (l : list A) : bool := match l with [] => true | _ => false end.
Lemma emptyb_ok {A} (l : list A) : emptyb l = true <-> l = [].
Proof. destruct l; split; intros H; try reflexivity; discriminate H. Qed.
Definition spaceb (c : N) : bool := ((c =? 32) || (c =? 9) || (c =? 10) || (c =? 13))%N.
Lemma spaceb_ok c : spaceb c = true <-> is_space c.
Proof. unfold spaceb, is_space. rewrite !orb_true_iff, !N.eqb_eq. tauto. Qed.
Definition blankb (s : str) : bool := forallb spaceb s.
Lemma blankb_ok s : blankb s = true -> blank s.
Proof. unfold blankb. rewrite forallb_forall. intros H. apply Forall_forall. intros c Hc. apply spaceb_ok. apply H, Hc. Qed.
Definition clearb (s : str) : bool := forallb (fun c => negb (is_uni_ws c) || spaceb c) s.
Lemma clearb_ok s : clearb s = true -> clear s.
Proof.
  unfold clearb. rewrite forallb_forall. intros H. apply Forall_forall. intros c Hc Hu. specialize (H c Hc). rewrite Hu in H. apply spaceb_ok. exact H.
Qed.
Definition ncnameb (s : str) : bool := match ncname s with Some l => str_eqb l s | None => false end.
Lemma ncnameb_ok s : ncnameb s = true -> NCName s.
Proof. unfold ncnameb. destruct (ncname s) as [l|] eqn:E; [|discriminate]. intros H. apply str_eqb_eq in H. subst l. apply ncname_trim in E. apply E. Qed.

Fixpoint adjacentb (ks : list xnod) : bool :=
  match ks with
  | XTxt _ :: (XTxt _ :: _) => true
  | _ :: ks' => adjacentb ks'
  | [] => false
  end.
Lemma adjacentb_ok ks : adjacentb ks = false -> forall a s t b, ks <> a ++ XTxt s :: XTxt t :: b.
Proof.
  induction ks as [|k ks IH]; intros H a s t b E; [destruct a; discriminate E|]. destruct a as [|x a]; cbn in E; [injection E as -> ->; discriminate H|].
  injection E as -> ->. refine (IH _ a s t b eq_refl). cbn [adjacentb] in H. destruct x; try exact H. destruct (a ++ XTxt s :: XTxt t :: b) as [|[] ?]; try exact H. discriminate H.
Qed.
Definition texts_all (f : str -> bool) (ks : list xnod) : bool := forallb (fun k => match k with XTxt s => f s | _ => true end) ks.
Lemma texts_all_ok f ks : texts_all f ks = true -> forall s, In (XTxt s) ks -> f s = true.
Proof. unfold texts_all. rewrite forallb_forall. intros H s Hs. exact (H _ Hs). Qed.
Definition has_all (atts : list xatt) (n : string) (f : str -> bool) : bool :=
  forallb (fun a => match xa_ns a with None => negb (str_eqb (xa_name a) (lit n)) || f (xa_value a) | Some _ => true end) atts.
Lemma has_all_ok atts n f : has_all atts n f = true -> forall v, Has atts n v -> f v = true.
Proof.
  unfold has_all. rewrite forallb_forall. intros H v Hv. specialize (H _ Hv). cbn in H. rewrite (proj2 (str_eqb_eq _ _) eq_refl) in H. exact H.
Qed.
Fixpoint pairb (f : N -> N -> bool) (s : str) : bool := match s with a :: ((b :: _) as t) => f a b || pairb f t | _ => false end.
Lemma pairb_ok f s : pairb f s = false -> forall a b x y, s = a ++ x :: y :: b -> f x y = false.
Proof.
  induction s as [|c s IH]; intros H a b x y E; [destruct a; discriminate E|]. destruct a as [|z a]; cbn in E.
  - injection E as -> ->. cbn in H. apply orb_false_iff in H. apply H.
  - injection E as -> ->. refine (IH _ a b x y eq_refl). cbn [pairb] in H. destruct (a ++ x :: y :: b); [reflexivity|]. apply orb_false_iff in H. apply H.
Qed.
Definition colon_spaced (a b : N) : bool := (spaceb a && (b =? 58)%N) || ((a =? 58)%N && spaceb b).
Definition onlyb (atts : list xatt) (names : list string) : bool :=
  forallb (fun a => match xa_ns a with
                    | Some u => negb (str_eqb u rng_uri)
                    | None => existsb (is_name (xa_name a)) (names ++ ["ns"; "datatypeLibrary"]%string)
                    end) atts.
Lemma onlyb_ok atts names : onlyb atts names = true -> Only atts names.
Proof.
  unfold onlyb. rewrite forallb_forall. intros H a Ha. specialize (H a Ha). destruct (xa_ns a) as [u|].
  - split; [|discriminate]. intros [= ->]. apply negb_true_iff in H. assert (str_eqb rng_uri rng_uri = true) by (apply str_eqb_eq; reflexivity). congruence.
  - split; [discriminate|]. intros _. apply existsb_exists in H as (n & Hn & E). exists n. split; [exact Hn | apply DatatypeProof.is_name_true; exact E].
Qed.
Lemma Only_more atts l : Only atts [] -> Only atts l.
Proof. intros H a Ha. destruct (H a Ha) as [H1 H2]. split; [exact H1|]. intros Hn. destruct (H2 Hn) as (n & Hi & E). exists n. split; [apply in_or_app; right; exact Hi | exact E]. Qed.
Definition own_table : list (string * list string) :=
  [("define", ["name"; "combine"]); ("ref", ["name"]); ("parentRef", ["name"]); ("param", ["name"]); ("element", ["name"]); ("attribute", ["name"]);
   ("value", ["type"]); ("data", ["type"]); ("include", ["href"]); ("externalRef", ["href"]); ("start", ["combine"])]%string.
Definition own_b (name : str) : list string := match find_entry name own_table with Some l => l | None => [] end.
Lemma find_entry_name' {A} n (l : list (string * A)) a : find_entry n l = Some a -> exists k, In (k, a) l /\ n = lit k.
Proof.
  induction l as [|[k b] l IH]; cbn [find_entry]; [discriminate|]. destruct (is_name n k) eqn:E.
  - intros [= <-]. exists k. split; [left; reflexivity | apply DatatypeProof.is_name_true; exact E].
  - intros H. destruct (IH H) as (k' & H1 & H2). exists k'. split; [right; exact H1 | exact H2].
Qed.
Lemma own_ok atts nm : onlyb atts (own_b (lit nm)) = true -> Only atts (own_attributes nm).
Proof.
  intros H. apply onlyb_ok in H. unfold own_b in H. destruct (find_entry (lit nm) own_table) as [l|] eqn:E; [|apply Only_more; exact H].
  apply find_entry_name' in E as (k & Hk & E). apply lit_inj in E. subst k. cbn in Hk. repeat (destruct Hk as [Hk|Hk]; [injection Hk as <- <-; exact H|]). destruct Hk.
Qed.
Fixpoint nodes_b (f : xnod -> bool) (n : xnod) : bool :=
  f n && match n with XElt ns _ _ _ kids => negb (is_rng ns) || forallb (nodes_b f) kids | _ => true end.
Lemma Within_nodes f : forall up n up' n', Within up n up' n' -> nodes_b f n = true -> f n' = true.
Proof.
  intros up n up' n' H. induction H as [up n|up nm atts sc kids k up' n' Hk H IH]; intros E.
  - destruct n; cbn [nodes_b] in E; apply andb_true_iff in E; apply E.
  - cbn [nodes_b] in E. apply andb_true_iff in E as [_ E]. apply IH. change (is_rng (Some rng_uri)) with true in E. cbn [negb orb] in E. rewrite forallb_forall in E. exact (E k Hk).
Qed.
Definition slashb (s : str) : bool := existsb (fun c => (c =? 47)%N) s.
Fixpoint cut (s : str) : str * option str :=
  match s with
  | [] => ([], None)
  | c :: s' => if (c =? 47)%N then ([], Some s') else let '(a, r) := cut s' in (c :: a, r)
  end.
Lemma cut_ok s : let '(a, r) := cut s in slashless a /\ match r with None => s = a | Some t => s = a ++ lit "/" ++ t end.
Proof.
  induction s as [|c s IH]; cbn [cut]; [split; [intros [] | reflexivity]|]. destruct (c =? 47)%N eqn:E; [apply N.eqb_eq in E; subst c; split; [intros [] | reflexivity]|].
  destruct (cut s) as [a r]. destruct IH as [H1 H2]. apply N.eqb_neq in E. split; [intros [H|H]; [congruence | exact (H1 H)]|]. destruct r; rewrite H2; reflexivity.
Qed.
Fixpoint segmentsb (fuel : nat) (s : str) : bool :=
  match fuel with
  | O => false
  | S fuel => let '(a, r) := cut s in
      negb (str_eqb a (lit ".")) && match r with None => true | Some t => negb (emptyb a) && segmentsb fuel t end
  end.
Lemma segmentsb_ok fuel : forall s, segmentsb fuel s = true -> Segments s.
Proof.
  induction fuel as [|fuel IH]; cbn [segmentsb]; [discriminate|]. intros s H. pose proof (cut_ok s) as Hc. destruct (cut s) as [a r]. destruct Hc as [Ha Hr].
  apply andb_true_iff in H as [H1 H2]. apply negb_true_iff, str_eqb_neq in H1. destruct r as [t|]; rewrite Hr; [|constructor; assumption].
  apply andb_true_iff in H2 as [H2 H3]. apply Sg_more; [exact Ha | | exact H1 | exact (IH t H3)]. destruct a; [discriminate H2 | discriminate].
Qed.
Definition clean_pathb (v : str) : bool :=
  negb (emptyb v) && (segmentsb (S (List.length v)) v || match v with c :: r => (c =? 47)%N && segmentsb (S (List.length r)) r | [] => false end).
Lemma clean_pathb_ok v : clean_pathb v = true -> clean_path v.
Proof.
  unfold clean_pathb. intros H. apply andb_true_iff in H as [H1 H2]. split; [intros ->; discriminate H1|]. apply orb_true_iff in H2 as [H2|H2]; [left; exact (segmentsb_ok _ _ H2)|].
  destruct v as [|c r]; [discriminate|]. apply andb_true_iff in H2 as [H2 H3]. apply N.eqb_eq in H2. subst c. right. exists r. split; [reflexivity | exact (segmentsb_ok _ _ H3)].
Qed.

Section Check.
Variable U : str -> bool.
Definition in_force_b (n : string) (up : ups) : str := or_empty (inherited n up).
Definition local_b (up : ups) (name : str) (atts : list xatt) (sc : list (option str * str)) (kids : list xnod) : bool :=
  forallb id
  [ nodupb att_key_eqb (map (fun a => (xa_ns a, xa_name a)) atts);
    nodupb opt_eqb (map fst sc) && forallb (fun '(p, u) => match p with Some p => ncnameb p && negb (emptyb u) | None => true end) sc;
    negb (adjacentb kids);
    forallb (fun a => clearb (xa_value a)) atts && texts_all clearb kids;
    but_names name string_names (texts_all blankb kids);
    for_names name string_names (forallb (fun k => match k with XCom _ | XPin => false | XElt _ _ _ _ _ => negb (is_name name "param") | XTxt _ => true end) kids);
    for_names name ["param"%string] (negb (emptyb kids));
    forallb (fun a => match xa_ns a with Some u => negb (str_eqb u rng_uri) | None => true end) atts;
    but_names name ["element"; "attribute"; "data"; "start"; "empty"; "text"; "notAllowed"]%string (onlyb atts (own_b name));
    for_names name ["data"; "start"; "empty"; "text"; "notAllowed"]%string (has_all atts "ns" (fun _ => false));
    for_names name ["start"; "empty"; "text"; "notAllowed"]%string (has_all atts "datatypeLibrary" (fun _ => false));
    has_all atts "datatypeLibrary" (fun v => emptyb v || U v);
    for_names name ["element"; "attribute"]%string (has_all atts "name" (fun v => negb (pairb colon_spaced v)));
    for_names name ["name"%string] (texts_all (fun s => negb (has_colon s)) kids);
    for_names name ["attribute"%string] (has_all atts "name" (fun v => has_colon v || match att "ns" atts with Some _ => true | None => emptyb (in_force_b "ns" up) end));
    for_names name ["attribute"%string] (forallb (fun '(p, u) => negb (str_eqb u xmlns_uri)) sc);
    for_names name ["attribute"%string] (has_all atts "name" (fun v => (negb (has_colon v) || negb (str_eqb (in_force_b "ns" (atts :: up)) xmlns_uri)) && (negb (str_eqb (trim v) (lit "xmlns")) || str_eqb v (lit "xmlns"))));
    for_names name ["name"; "nsName"]%string (negb (str_eqb (in_force_b "ns" (atts :: up)) xmlns_uri) && texts_all (fun s => negb (str_eqb (trim s) (lit "xmlns"))) kids);
    for_names name ["nsName"%string] (forallb (nodes_b (fun n => match n with XElt ns nm _ _ _ => negb (is_rng ns && is_name nm "nsName") | _ => true end)) kids);
    for_names name ["data"%string] (has_all atts "type" (fun v => negb (str_eqb (trim v) (lit "token")) || emptyb (in_force_b "datatypeLibrary" (atts :: up))));
    for_names name ["externalRef"; "include"]%string (emptyb (in_force_b "ns" (atts :: up)) && has_all atts "href" (fun h => negb (emptyb h)));
    for_names name ["externalRef"%string] (no_rng_children kids && texts_all blankb kids);
    forallb (fun a => negb (opt_eqb (xa_ns a) (Some xml_ns) && is_name (xa_name a) "base") || clean_pathb (xa_value a)) atts;
    for_names name ["define"; "ref"; "parentRef"]%string (has_all atts "name" (fun v => negb (str_eqb (trim v) (lit "start")))) ].
Fixpoint check (up : ups) (n : xnod) : bool :=
  match n with
  | XElt ns nm atts sc kids => negb (is_rng ns) || local_b up nm atts sc kids && forallb (check (atts :: up)) kids
  | _ => true
  end.
Lemma nonspace_padded v t : clear v -> t <> [] -> Forall (fun c => ~ is_space c) t -> Padded v t -> trim v = t.
Proof. intros Hc Hn Ht H. apply trim_padded; [exact Hc | apply chars_solid; assumption | exact H]. Qed.
Ltac named_ok := first [discriminate | repeat constructor; vm_compute; intuition discriminate].
Lemma local_b_ok up nm atts sc kids : Forall distinct up -> local_b up (lit nm) atts sc kids = true -> Local U up nm atts sc kids.
Proof.
  intros HU H. unfold local_b in H. cbn [forallb] in H. unfold id in H. rewrite !andb_true_iff in H.
  destruct H as (H1 & [H2 H2'] & H3 & [H4 H4'] & H5 & H6 & H7 & H8 & H9 & H10 & H11 & H12 & H13 & H14 & H15 & H16 & H17 & H18 & H19 & H20 & H21 & H22 & H23 & H24 & _).
  assert (D : distinct atts) by exact (nodupb_ok _ att_key_refl _ H1). assert (DU : Forall distinct (atts :: up)) by (constructor; assumption).
  rewrite forallb_forall in H2', H4, H8, H23.
  assert (HC : forall n v, Has atts n v -> clear v) by (intros n v Hv; exact (clearb_ok _ (H4 _ Hv))).
  assert (HT : forall s, In (XTxt s) kids -> clear s) by (intros s Hs; exact (clearb_ok _ (texts_all_ok _ _ H4' s Hs))).
  assert (HX : forall v, clear v -> Padded v (lit "xmlns") -> trim v = lit "xmlns") by (intros v Hv; apply nonspace_padded; [exact Hv|..]; named_ok).
  assert (HF : forall n up0 v, Forall distinct up0 -> InForce n up0 v -> in_force_b n up0 = v) by (intros n up0 v Hd Hv; apply inherited_ok; assumption).
  assert (HF' : forall n up0, Forall distinct up0 -> emptyb (in_force_b n up0) = true -> InForce n up0 []) by (intros n up0 Hd Hv; apply inherited_ok; [exact Hd | apply emptyb_ok; exact Hv]).
  constructor.
  - exact D.
  - split; [exact (nodupb_ok _ opt_eqb_refl _ H2)|]. intros p u Hp. specialize (H2' _ Hp). cbn in H2'. apply andb_true_iff in H2' as [A B]. split; [exact (ncnameb_ok _ A) | intros ->; discriminate B].
  - apply adjacentb_ok, negb_true_iff, H3.
  - split; [apply Forall_forall; intros a Ha; exact (clearb_ok _ (H4 a Ha)) | exact HT].
  - intros Hn s Hs. apply blankb_ok. exact (texts_all_ok _ _ (but_names_lit _ _ _ H5 Hn) s Hs).
  - intros Hn k Hk. apply (for_names_lit _ _ _ H6) in Hn. rewrite forallb_forall in Hn. specialize (Hn k Hk). destruct k; try discriminate Hn; try exact I. intros ->. discriminate Hn.
  - intros Hn. apply (for_one _ _ _ H7) in Hn. intros ->. discriminate Hn.
  - intros a Ha. specialize (H8 a Ha). intros E. rewrite E in H8. apply negb_true_iff, str_eqb_neq in H8. congruence.
  - intros Hn. apply own_ok. exact (but_names_lit _ _ _ H9 Hn).
  - intros Hn v Hv. pose proof (has_all_ok _ _ _ (for_names_lit _ _ _ H10 Hn) v Hv). discriminate.
  - intros Hn v Hv. pose proof (has_all_ok _ _ _ (for_names_lit _ _ _ H11 Hn) v Hv). discriminate.
  - intros _ v Hv. pose proof (has_all_ok _ _ _ H12 v Hv) as A. apply orb_true_iff in A as [A|A]; [left; apply emptyb_ok; exact A | right; exact A].
  - intros Hn v Hv a b c Hc. pose proof (has_all_ok _ _ _ (for_names_lit _ _ _ H13 Hn) v Hv) as A. apply negb_true_iff in A. apply spaceb_ok in Hc. split; intros E.
    + pose proof (pairb_ok _ _ A a b c 58%N E) as B. unfold colon_spaced in B. rewrite Hc in B. discriminate B.
    + pose proof (pairb_ok _ _ A a b 58%N c E) as B. unfold colon_spaced in B. rewrite Hc in B. rewrite (N.eqb_refl 58) in B. rewrite orb_comm in B. discriminate B.
  - intros Hn s Hs E. pose proof (texts_all_ok _ _ (for_one _ _ _ H14 Hn) s Hs) as A. apply negb_true_iff in A. apply has_colon_In in E. congruence.
  - intros Hn v Hv Hc. pose proof (has_all_ok _ _ _ (for_one _ _ _ H15 Hn) v Hv) as A. apply orb_true_iff in A as [A|A]; [apply has_colon_In in A; contradiction|].
    destruct (att "ns" atts) as [ns|] eqn:E; [left; exists ns; apply att_Has; assumption | right; apply HF'; assumption].
  - intros Hn. split.
    + intros p u Hp ->. pose proof (for_one _ _ _ H16 Hn) as A. rewrite forallb_forall in A. specialize (A _ Hp). cbn beta iota in A. apply negb_true_iff, str_eqb_neq in A. congruence.
    + intros v Hv. pose proof (has_all_ok _ _ _ (for_one _ _ _ H17 Hn) v Hv) as A. apply andb_true_iff in A as [A B]. split.
      * intros Hc Hi. apply (HF _ _ _ DU) in Hi. apply has_colon_In in Hc. rewrite Hc, Hi in A. apply negb_true_iff, str_eqb_neq in A. congruence.
      * intros Hp. apply (HX _ (HC _ _ Hv)) in Hp. rewrite Hp in B. apply str_eqb_eq. exact B.
  - intros Hn. apply (for_names_lit _ _ _ H18) in Hn. apply andb_true_iff in Hn as [A B]. split.
    + intros Hi. apply (HF _ _ _ DU) in Hi. rewrite Hi in A. apply negb_true_iff, str_eqb_neq in A. congruence.
    + intros s Hs Hp. apply (HX _ (HT _ Hs)) in Hp. pose proof (texts_all_ok _ _ B s Hs) as C. cbn beta in C. rewrite Hp in C. discriminate C.
  - intros Hn k up' a s ks Hk HW. apply (for_one _ _ _ H19) in Hn. rewrite forallb_forall in Hn. pose proof (Within_nodes _ _ _ _ _ HW (Hn k Hk)) as A. discriminate A.
  - intros Hn v Hv Hp. pose proof (has_all_ok _ _ _ (for_one _ _ _ H20 Hn) v Hv) as A. apply nonspace_padded in Hp; [|exact (HC _ _ Hv)|named_ok|named_ok]. cbn beta in A. rewrite Hp in A. apply HF'; [exact DU | exact A].
  - intros Hn. apply (for_names_lit _ _ _ H21) in Hn. apply andb_true_iff in Hn as [A B]. split; [apply HF'; assumption|]. intros h Hh ->. pose proof (has_all_ok _ _ _ B _ Hh). discriminate.
  - intros Hn. apply (for_one _ _ _ H22) in Hn. apply andb_true_iff in Hn as [A B]. apply Elements_nil; [|exact A]. intros s Hs. apply blankb_ok. exact (texts_all_ok _ _ B s Hs).
  - intros v Hv. specialize (H23 _ Hv). apply clean_pathb_ok. exact H23.
  - intros Hn v Hv Hp. pose proof (has_all_ok _ _ _ (for_names_lit _ _ _ H24 Hn) v Hv) as A. apply nonspace_padded in Hp; [|exact (HC _ _ Hv)|named_ok|named_ok]. cbn beta in A. rewrite Hp in A. discriminate A.
Qed.
Lemma check_within : forall up n up' n', Within up n up' n' -> forall nm atts sc kids, n' = XElt (Some rng_uri) (lit nm) atts sc kids -> Forall distinct up -> check up n = true -> Local U up' nm atts sc kids.
Proof.
  intros up n up' n' H. induction H as [up n|up nm atts sc kids k up' n' Hk H IH]; intros nm' atts' sc' kids' -> HU E.
  - cbn [check] in E. change (is_rng (Some rng_uri)) with true in E. cbn [negb orb] in E. apply andb_true_iff in E as [E _]. exact (local_b_ok _ _ _ _ _ HU E).
  - cbn [check] in E. change (is_rng (Some rng_uri)) with true in E. cbn [negb orb] in E. apply andb_true_iff in E as [E1 E2]. rewrite forallb_forall in E2.
    eapply IH; [reflexivity | | exact (E2 k Hk)]. constructor; [|exact HU]. unfold local_b in E1. cbn [forallb] in E1. apply andb_true_iff in E1 as [E1 _]. exact (nodupb_ok _ att_key_refl _ E1).
Qed.
Lemma check_ok X : check [] X = true -> XScope U X.
Proof. intros H up nm atts sc kids HW. exact (check_within _ _ _ _ HW _ _ _ _ eq_refl (Forall_nil _) H). Qed.
End Check.
