(** * XmlRefuse: what every accepted schema document has, with no condition on the document. *)
From Coq Require Import String.
From Verif Require Import Base Datatype DatatypeSpec Facets Syntax XmlSyntax RngXml XmlScope XmlBase XmlProof XmlCheck XmlDoc.
From Verif Require DatatypeProof.

(** ** The vocabulary (RELAX NG, section 3) *)
Definition vocabulary : list string :=
  ["element"; "attribute"; "group"; "interleave"; "choice"; "optional"; "zeroOrMore"; "oneOrMore"; "list"; "mixed";
   "ref"; "parentRef"; "empty"; "text"; "value"; "data"; "notAllowed"; "externalRef"; "grammar"; "param"; "except";
   "start"; "define"; "div"; "include"; "name"; "anyName"; "nsName"]%string.
(** attributes which must be there *)
Definition required : list (string * string) :=
  [("ref", "name"); ("parentRef", "name"); ("define", "name"); ("param", "name"); ("data", "type"); ("externalRef", "href"); ("include", "href")]%string.
(** the elements whose attributes are looked at, and those they may have (in no namespace, or RELAX NG's) *)
Definition allowed : list (string * list string) :=
  [("element", ["name"; "ns"; "datatypeLibrary"]); ("attribute", ["name"; "ns"; "datatypeLibrary"]); ("data", ["type"; "datatypeLibrary"]);
   ("start", ["combine"]); ("empty", []); ("text", []); ("notAllowed", [])]%string.
(** elements which need an element in them, and elements which must not have one *)
Definition filled : list string := ["element"; "group"; "interleave"; "choice"; "optional"; "zeroOrMore"; "oneOrMore"; "list"; "mixed"; "start"; "define"; "except"]%string.
Definition bare : list string := ["ref"; "parentRef"; "empty"; "text"; "notAllowed"; "value"; "name"]%string.
Definition RngKid (kids : list xnod) : Prop := exists nm a sc k, In (XElt (Some rng_uri) nm a sc k) kids.

(** the elements of the schema which are looked at: not those inside a foreign element, <externalRef> or <param> *)
Inductive Seen : xnod -> xnod -> Prop :=
| Se_here n : Seen n n
| Se_kid nm a sc kids k n : In k kids -> nm <> lit "externalRef" -> nm <> lit "param" -> Seen k n -> Seen (XElt (Some rng_uri) nm a sc kids) n.
Record Proper (nm : str) (atts : list xatt) (kids : list xnod) : Prop := {
  pr_vocabulary : exists n, In n vocabulary /\ nm = lit n;
  pr_required : forall n a, In (n, a) required -> nm = lit n -> exists v, Has atts a v;
  pr_allowed : forall n l, In (n, l) allowed -> nm = lit n -> forall a, In a atts -> xa_ns a = None \/ xa_ns a = Some rng_uri -> exists x, In x l /\ xa_name a = lit x;
  pr_filled : forall n, In n filled -> nm = lit n -> RngKid kids;
  pr_bare : forall n, In n bare -> nm = lit n -> ~ RngKid kids
}.

(** ** Proof *)
Definition good (n : xnod) : Prop := match n with XElt ns nm a sc k => ns = Some rng_uri -> Proper nm a k | _ => True end.
Definition deep (n : xnod) : Prop := forall n', Seen n n' -> good n'.
Lemma deep_kids nm a sc kids : Proper nm a kids -> (nm <> lit "externalRef" -> nm <> lit "param" -> forall k, In k kids -> is_rng_el k = true -> deep k) -> deep (XElt (Some rng_uri) nm a sc kids).
Proof.
  intros HP HK n' H. inversion H as [|? ? ? ? k ? Hk H1 H2 HS]; subst; [intros _; exact HP|]. destruct (is_rng_el k) eqn:E; [exact (HK H1 H2 k Hk E n' HS)|].
  inversion HS; subst; [|cbn in E; discriminate E]. destruct n'; try exact I. intros ->. discriminate E.
Qed.
Lemma each_some {A} (f : xnod -> option A) ks l : each f ks = Some l -> forall k, In k ks -> is_rng_el k = true -> exists x, f k = Some x.
Proof.
  revert l. induction ks as [|k ks IH]; intros l E k' Hk Hr; [destruct Hk|]. cbn [each] in E. destruct Hk as [<-|Hk].
  - rewrite Hr in E. destruct (f k); [eauto | discriminate].
  - destruct (is_rng_el k); [|exact (IH l E k' Hk Hr)]. destruct (f k); [|discriminate]. fold (each f ks) in E. destruct (each f ks) as [m|] eqn:Em; [|discriminate]. exact (IH m eq_refl k' Hk Hr).
Qed.
Lemma each_nonempty {A} (f : xnod -> option A) ks x l : each f ks = Some (x :: l) -> RngKid ks.
Proof.
  rewrite each_filter. destruct (filter is_rng_el ks) as [|k m] eqn:E; [discriminate|]. intros _. assert (H : In k (filter is_rng_el ks)) by (rewrite E; left; reflexivity).
  apply filter_In_kids in H as (H & nm & a & sc & kk & ->). exists nm, a, sc, kk. exact H.
Qed.
Lemma joined_some {A} op (o : option (list A)) x : joined op o = Some x -> exists y l, o = Some (y :: l).
Proof. destruct o as [[|y l]|]; try discriminate. eauto. Qed.
Lemma no_rng_none kids : no_rng_children kids = true -> ~ RngKid kids.
Proof. intros H (nm & a & sc & k & Hk). apply negb_true_iff in H. assert (existsb is_rng_el kids = true); [|congruence]. apply existsb_exists. eexists. split; [exact Hk | reflexivity]. Qed.
Lemma no_elt_none kids : existsb is_elt kids = false -> ~ RngKid kids.
Proof. intros H (nm & a & sc & k & Hk). assert (existsb is_elt kids = true); [|congruence]. apply existsb_exists. eexists. split; [exact Hk | reflexivity]. Qed.
Lemma att_In n atts v : att n atts = Some v -> Has atts n v.
Proof.
  induction atts as [|a l IH]; [discriminate|]. cbn [att]. destruct (xa_ns a) as [u|] eqn:E; cbn [andb]; [intros H; right; exact (IH H)|].
  destruct (str_eqb (xa_name a) (lit n)) eqn:E2; [|intros H; right; exact (IH H)]. apply str_eqb_eq in E2. intros [= <-]. left. destruct a. cbn in *. subst. reflexivity.
Qed.
Lemma no_attrs_allowed atts l : no_attrs_except atts l = true -> forall a, In a atts -> xa_ns a = None \/ xa_ns a = Some rng_uri -> exists x, In x l /\ xa_name a = lit x.
Proof.
  unfold no_attrs_except. intros H a Ha Hn. apply negb_true_iff in H. destruct (existsb (fun n => str_eqb (xa_name a) (lit n)) l) eqn:E.
  - apply existsb_exists in E as (x & Hx & E). apply str_eqb_eq in E. eauto.
  - assert (X : existsb (fun a => is_rng_att a && negb (existsb (fun n => str_eqb (xa_name a) (lit n)) l)) atts = true); [|congruence].
    apply existsb_exists. exists a. split; [exact Ha|]. rewrite E. unfold is_rng_att. destruct Hn as [-> | ->]; reflexivity.
Qed.
(** an element is proper when it passes the tests of its name *)
Ltac not_there := let H := fresh in let E := fresh in cbn; intros; repeat match goal with H : _ \/ _ |- _ => destruct H as [H|H] end; try match goal with H : False |- _ => destruct H end;
  repeat match goal with H : (_, _) = (_, _) |- _ => injection H as <- <- end; subst; try (match goal with E : lit _ = lit _ |- _ => apply lit_inj in E; discriminate E end).
Lemma proper nm atts kids : In nm vocabulary ->
  (forall a, In (nm, a) required -> exists v, Has atts a v) -> (forall l, In (nm, l) allowed -> no_attrs_except atts l = true) ->
  (In nm filled -> RngKid kids) -> (In nm bare -> ~ RngKid kids) -> Proper (lit nm) atts kids.
Proof.
  intros HV HR HA HF HB. constructor.
  - eauto.
  - intros n a Hn E. apply lit_inj in E. subst n. exact (HR a Hn).
  - intros n l Hn E. apply lit_inj in E. subst n. apply no_attrs_allowed. exact (HA l Hn).
  - intros n Hn E. apply lit_inj in E. subst n. exact (HF Hn).
  - intros n Hn E. apply lit_inj in E. subst n. exact (HB Hn).
Qed.
Ltac none := cbn; intuition discriminate.
Ltac voc := apply In_dec_names; reflexivity.
Lemma except_deep {A} (f : list xatt -> xnod -> option A) op ks e : except_child f op ks = Some e ->
  (forall x a sc k, In x ks -> x = XElt (Some rng_uri) (lit "except") a sc k -> forall y z, In y k -> is_rng_el y = true -> f a y = Some z -> deep y) -> forall k, In k ks -> is_rng_el k = true -> deep k.
Proof.
  rewrite except_child_filter. intros E HF k Hk Hr. assert (Hi : In k (filter is_rng_el ks)) by (apply filter_In; auto). destruct (filter is_rng_el ks) as [|x [|? ?]] eqn:Ef.
  - destruct Hi.
  - destruct Hi as [<-|[]]. assert (HE : exists nm a sc gk, x = XElt (Some rng_uri) nm a sc gk) by (destruct x as [ns nm a sc gk| | |]; try discriminate Hr; cbn in Hr; apply is_rng_true in Hr; subst ns; eauto).
    destruct HE as (nm & a & sc & gk & ->). destruct (str_eqb nm (lit "except")) eqn:En; [|discriminate]. apply str_eqb_eq in En. subst nm. destruct (joined op (each (f a) gk)) as [y|] eqn:Ej; [|discriminate].
    apply joined_some in Ej as (y0 & l & Ej). apply deep_kids.
    + apply proper; [voc | none | none | intros _; exact (each_nonempty _ _ _ _ Ej) | none].
    + intros _ _ y1 Hy1 Hr1. destruct (each_some _ _ _ Ej y1 Hy1 Hr1) as [z Hz]. exact (HF _ a sc gk Hk eq_refl y1 z Hy1 Hr1 Hz).
  - destruct x; discriminate.
Qed.
Lemma class_deep : forall N n, (xsize n < N)%nat -> forall up w c, name_class up w n = Some c -> deep n.
Proof.
  induction N as [|N IH]; [lia|]. intros n HN up w c E. destruct n as [ns nm a sc kids| | |]; try discriminate E. rewrite name_class_eq in E. destruct (is_rng ns) eqn:Er; [|discriminate]. apply is_rng_true in Er. subst ns.
  assert (HK : forall y up' w' x, In y kids -> name_class up' w' y = Some x -> deep y) by (intros y up' w' x Hy Ey; apply (IH y) with (up := up') (w := w') (c := x); [apply (kid_size (Some rng_uri) nm a sc) in Hy; lia | exact Ey]).
  assert (HE : forall e, except_child (fun x => name_class (x :: a :: up) true) CAlt kids = Some e -> forall k, In k kids -> is_rng_el k = true -> deep k).
  { intros e Ee. apply (except_deep _ _ _ _ Ee). intros x xa xs xk Hx -> y z Hy _ Ez. eapply IH; [|exact Ez]. apply (kid_size (Some rng_uri) nm a sc) in Hx. apply (kid_size (Some rng_uri) (lit "except") xa xs) in Hy. lia. }
  destruct (str_eqb nm (lit "name")) eqn:E1.
  { apply str_eqb_eq in E1. subst nm. unfold qname_el in E. destruct (existsb is_elt kids) eqn:Ee; [discriminate|]. apply deep_kids.
    - apply proper; [voc | none | none | none | intros _; exact (no_elt_none _ Ee)].
    - intros _ _ k Hk Hr. exfalso. apply (no_elt_none _ Ee). destruct k as [ns nm2 a2 sc2 k2| | |]; try discriminate Hr. cbn in Hr. apply is_rng_true in Hr. subst ns. exists nm2, a2, sc2, k2. exact Hk. }
  destruct (str_eqb nm (lit "anyName")) eqn:E2.
  { apply str_eqb_eq in E2. subst nm. destruct w; [discriminate|]. destruct (except_child _ _ _) as [e|] eqn:Ee; [|discriminate]. apply deep_kids; [|intros _ _; exact (HE e eq_refl)]. apply proper; [voc | none | none | none | none]. }
  destruct (str_eqb nm (lit "nsName")) eqn:E3.
  { apply str_eqb_eq in E3. subst nm. destruct (except_child _ _ _) as [e|] eqn:Ee; [|discriminate]. apply deep_kids; [|intros _ _; exact (HE e eq_refl)]. apply proper; [voc | none | none | none | none]. }
  destruct (str_eqb nm (lit "choice")) eqn:E4; [|discriminate]. apply str_eqb_eq in E4. subst nm. apply joined_some in E as (y & l & Ej). apply deep_kids.
  - apply proper; [voc | none | none | intros _; exact (each_nonempty _ _ _ _ Ej) | none].
  - intros _ _ k Hk Hr. destruct (each_some _ _ _ Ej k Hk Hr) as [z Hz]. exact (HK k _ _ z Hk Hz).
Qed.
Section Proof.
Variable U : str -> bool.
Definition Deep (N : nat) : Prop :=
  (forall n up p, (xsize n < N)%nat -> pattern U up n = Some p -> deep n) /\
  (forall n up g, (xsize n < N)%nat -> grammar_content U up n = Some g -> deep n) /\
  (forall n up i, (xsize n < N)%nat -> include_content U up n = Some i -> deep n).
Lemma param_deep k p : is_rng_el k = true -> named k "param" = true -> param_el k = Some p -> deep k.
Proof.
  intros Hr Hn E. destruct k as [ns nm a sc kids| | |]; try discriminate Hr. cbn in Hr. apply is_rng_true in Hr. subst ns. cbn [named] in Hn. apply andb_true_iff in Hn as [_ Hn]. apply str_eqb_eq in Hn. subst nm.
  apply deep_kids; [|intros _ H; exfalso; exact (H eq_refl)]. cbn [param_el] in E. destruct (att "name" a) as [v|] eqn:Ea; [|discriminate]. apply att_In in Ea.
  apply proper; [voc | | none | none | none]. intros x Hx. cbn in Hx. repeat (destruct Hx as [Hx|Hx]; [try discriminate Hx; injection Hx as <-; eauto|]). destruct Hx.
Qed.
Lemma data_deep (f : list xatt -> xnod -> option spat) ks r : data_children f ks = Some r ->
  (forall x a sc k, In x ks -> x = XElt (Some rng_uri) (lit "except") a sc k -> forall y z, In y k -> is_rng_el y = true -> f a y = Some z -> deep y) -> forall k, In k ks -> is_rng_el k = true -> deep k.
Proof.
  revert r. induction ks as [|k ks IH]; intros r E HF x Hx Hr; [destruct Hx|]. cbn [data_children] in E. assert (HF' := fun y a sc kk Hy => HF y a sc kk (or_intror Hy)).
  destruct (is_rng_el k) eqn:Er; [|destruct Hx as [<-|Hx]; [congruence | exact (IH r E HF' x Hx Hr)]]. destruct (named k "param") eqn:En.
  - destruct (param_el k) as [p|] eqn:Ep; [|discriminate]. destruct (data_children f ks) as [[ps e]|] eqn:Ed; [|discriminate]. destruct Hx as [<-|Hx]; [exact (param_deep _ _ Er En Ep) | exact (IH _ eq_refl HF' x Hx Hr)].
  - destruct (except_child f SChoicePair (k :: ks)) as [e|] eqn:Ee; [|discriminate]. exact (except_deep _ _ _ _ Ee HF x Hx Hr).
Qed.
Lemma bare_kids kids : ~ RngKid kids -> forall k, In k kids -> is_rng_el k = true -> deep k.
Proof. intros H k Hk Hr. exfalso. apply H. destruct k as [ns nm2 a2 sc2 k2| | |]; try discriminate Hr. cbn in Hr. apply is_rng_true in Hr. subst ns. exists nm2, a2, sc2, k2. exact Hk. Qed.
Ltac attr1 H := let x := fresh in let Hx := fresh in intros x Hx; cbn in Hx; repeat (destruct Hx as [Hx|Hx]; [try discriminate Hx; injection Hx as <-; eauto using att_In|]); destruct Hx.
Ltac attrs H := let l := fresh in let Hl := fresh in intros l Hl; cbn in Hl; repeat (destruct Hl as [Hl|Hl]; [try discriminate Hl; injection Hl as <-; exact H|]); destruct Hl.
Lemma the_name_In a i : the_name a = Some i -> exists v, Has a "name" v.
Proof. unfold the_name. destruct (att "name" a) as [v|] eqn:E; [|discriminate]. apply att_In in E. eauto. Qed.
Lemma deep_all : forall N, Deep N.
Proof.
  induction N as [|N (IHp & IHg & IHi)]; [split; [|split]; intros; lia|].
  assert (Kp : forall nm a sc kids up y p, (xsize (XElt (Some rng_uri) nm a sc kids) < S N)%nat -> In y kids -> pattern U up y = Some p -> deep y).
  { intros nm a sc kids up y p HN Hy E. eapply IHp; [|exact E]. apply (kid_size (Some rng_uri) nm a sc) in Hy. lia. }
  assert (Ds : forall nm a sc kids up x, nm = "start"%string \/ nm = "define"%string -> (xsize (XElt (Some rng_uri) (lit nm) a sc kids) < S N)%nat ->
             (if String.eqb nm "start" then start_of_el a (each (pattern U up) kids) else define_of_el a (each (pattern U up) kids)) = Some x -> deep (XElt (Some rng_uri) (lit nm) a sc kids)).
  { intros nm a sc kids up x [-> | ->] HN E; cbn [String.eqb Ascii.eqb Bool.eqb] in E.
    - unfold start_of_el in E. destruct (combine_of a); [|discriminate]. destruct (each (pattern U up) kids) as [[|q [|? ?]]|] eqn:Ee; try discriminate. destruct (no_attrs_except a _) eqn:En; [|discriminate].
      apply deep_kids; [apply proper; [voc | none | attrs En | intros _; exact (each_nonempty _ _ _ _ Ee) | none]|]. intros _ _ k Hk Hr. destruct (each_some _ _ _ Ee k Hk Hr) as [z Hz]. eapply Kp; eauto.
    - unfold define_of_el in E. destruct (combine_of a); [|discriminate]. destruct (the_name a) as [i|] eqn:En; [|discriminate]. destruct (joined SListPair _) as [q|] eqn:Ej; [|discriminate]. apply joined_some in Ej as (y & l & Ee). apply the_name_In in En.
      apply deep_kids; [apply proper; [voc | attr1 En | none | intros _; exact (each_nonempty _ _ _ _ Ee) | none]|]. intros _ _ k Hk Hr. destruct (each_some _ _ _ Ee k Hk Hr) as [z Hz]. eapply Kp; eauto. }
  split; [|split].
  - intros n up p HN E. destruct n as [ns nm a sc kids| | |]; try discriminate E. cbn [pattern] in E. destruct (is_rng ns) eqn:Er; [|discriminate E]. apply is_rng_true in Er. subst ns. cbn [andb] in E.
    destruct (std_attrs U a); [|discriminate E]. destruct (find_entry nm pattern_kinds) as [kd|] eqn:Ek; [|discriminate E].
    assert (HK : forall up' l, each (pattern U up') kids = Some l -> forall k, In k kids -> is_rng_el k = true -> deep k) by (intros up' l El k Hk Hr; destruct (each_some _ _ _ El k Hk Hr) as [z Hz]; eapply Kp; eauto).
    assert (HR : forall c l, first_rest (name_class (a :: up) false) (pattern U (a :: up)) kids = Some (c, l) -> RngKid kids /\ forall k, In k kids -> is_rng_el k = true -> deep k).
    { intros c l Ef. rewrite first_rest_filter in Ef. destruct (filter is_rng_el kids) as [|k ks] eqn:Efi; [discriminate|]. destruct (name_class (a :: up) false k) as [c'|] eqn:Ec; [|discriminate].
      destruct (map_opt (pattern U (a :: up)) ks) as [m|] eqn:Em; [|discriminate]. injection Ef as <- <-.
      assert (Hin : forall x, In x (k :: ks) <-> In x kids /\ is_rng_el x = true) by (intros x; rewrite <- Efi; apply filter_In). split.
      - assert (H : In k (filter is_rng_el kids)) by (rewrite Efi; left; reflexivity). apply filter_In_kids in H as (H & nm' & a' & sc' & kk & ->). exists nm', a', sc', kk. exact H.
      - intros x Hx Hr. destruct (proj2 (Hin x) (conj Hx Hr)) as [<-|Hx'].
        + eapply class_deep; [|exact Ec]. apply Nat.lt_succ_diag_r.
        + assert (Hz : exists z, pattern U (a :: up) x = Some z).
          { clear - Em Hx'. revert m Em. induction ks as [|y ks IH]; intros m Em; [destruct Hx'|]. cbn [map_opt] in Em. destruct (pattern U (a :: up) y) eqn:Ey; [|discriminate]. destruct (map_opt (pattern U (a :: up)) ks); [|discriminate]. destruct Hx' as [<-|Hx']; [eauto | exact (IH Hx' _ eq_refl)]. }
          destruct Hz as [z Hz]. eapply Kp; eauto. }
    apply find_entry_name' in Ek as (nk & Hk & ->). cbn in Hk. repeat (destruct Hk as [Hk|Hk]; [injection Hk as <- <-|]); [..|destruct Hk].
    + destruct (no_attrs_except a _) eqn:Ea; [|discriminate]. destruct (att "name" a) as [v|].
      * destruct (qname_att _ _ _); [|discriminate]. destruct (joined SListPair _) as [x|] eqn:Ex; [|discriminate]. apply joined_some in Ex as (y & l & Ex).
        apply deep_kids; [apply proper; [voc | none | attrs Ea | intros _; exact (each_nonempty _ _ _ _ Ex) | none] | intros _ _; exact (HK _ _ Ex)].
      * destruct (first_rest _ _ _) as [[c l]|] eqn:Ef; [|discriminate]. destruct (HR _ _ eq_refl) as [H1 H2].
        apply deep_kids; [apply proper; [voc | none | attrs Ea | intros _; exact H1 | none] | intros _ _; exact H2].
    + destruct (no_attrs_except a _) eqn:Ea; [|discriminate]. destruct (att "name" a) as [v|].
      * destruct (attribute_name_ok _ _); [|discriminate]. destruct (qname_att _ _ _); [|discriminate]. destruct (each (pattern U (a :: up)) kids) as [l|] eqn:Ex; [|discriminate].
        apply deep_kids; [apply proper; [voc | none | attrs Ea | none | none] | intros _ _; exact (HK _ _ Ex)].
      * destruct (first_rest _ _ _) as [[c l]|] eqn:Ef; [|discriminate]. destruct (HR _ _ eq_refl) as [H1 H2].
        apply deep_kids; [apply proper; [voc | none | attrs Ea | none | none] | intros _ _; exact H2].
    + apply opt1_some in E as (x & E & _). apply joined_some in E as (y & l & E). apply deep_kids; [apply proper; [voc | none | none | intros _; exact (each_nonempty _ _ _ _ E) | none] | intros _ _; exact (HK _ _ E)].
    + apply joined_some in E as (y & l & E). apply deep_kids; [apply proper; [voc | none | none | intros _; exact (each_nonempty _ _ _ _ E) | none] | intros _ _; exact (HK _ _ E)].
    + apply joined_some in E as (y & l & E). apply deep_kids; [apply proper; [voc | none | none | intros _; exact (each_nonempty _ _ _ _ E) | none] | intros _ _; exact (HK _ _ E)].
    + apply opt1_some in E as (x & E & _). apply joined_some in E as (y & l & E). apply deep_kids; [apply proper; [voc | none | none | intros _; exact (each_nonempty _ _ _ _ E) | none] | intros _ _; exact (HK _ _ E)].
    + apply opt1_some in E as (x & E & _). apply joined_some in E as (y & l & E). apply deep_kids; [apply proper; [voc | none | none | intros _; exact (each_nonempty _ _ _ _ E) | none] | intros _ _; exact (HK _ _ E)].
    + apply opt1_some in E as (x & E & _). apply joined_some in E as (y & l & E). apply deep_kids; [apply proper; [voc | none | none | intros _; exact (each_nonempty _ _ _ _ E) | none] | intros _ _; exact (HK _ _ E)].
    + apply opt1_some in E as (x & E & _). apply joined_some in E as (y & l & E). apply deep_kids; [apply proper; [voc | none | none | intros _; exact (each_nonempty _ _ _ _ E) | none] | intros _ _; exact (HK _ _ E)].
    + apply opt1_some in E as (x & E & _). apply joined_some in E as (y & l & E). apply deep_kids; [apply proper; [voc | none | none | intros _; exact (each_nonempty _ _ _ _ E) | none] | intros _ _; exact (HK _ _ E)].
    + destruct (no_rng_children kids) eqn:Ec; [|discriminate]. apply no_rng_none in Ec. apply opt1_some in E as (x & E & _). apply the_name_In in E. apply deep_kids; [apply proper; [voc | attr1 E | none | none | intros _; exact Ec] | intros _ _; exact (bare_kids _ Ec)].
    + destruct (no_rng_children kids) eqn:Ec; [|discriminate]. apply no_rng_none in Ec. apply opt1_some in E as (x & E & _). apply the_name_In in E. apply deep_kids; [apply proper; [voc | attr1 E | none | none | intros _; exact Ec] | intros _ _; exact (bare_kids _ Ec)].
    + destruct (no_attrs_except a []) eqn:Ea; [|discriminate]. destruct (no_rng_children kids) eqn:Ec; [|discriminate]. apply no_rng_none in Ec. apply deep_kids; [apply proper; [voc | none | attrs Ea | none | intros _; exact Ec] | intros _ _; exact (bare_kids _ Ec)].
    + destruct (no_attrs_except a []) eqn:Ea; [|discriminate]. destruct (no_rng_children kids) eqn:Ec; [|discriminate]. apply no_rng_none in Ec. apply deep_kids; [apply proper; [voc | none | attrs Ea | none | intros _; exact Ec] | intros _ _; exact (bare_kids _ Ec)].
    + unfold value_el in E. destruct (existsb is_elt kids) eqn:Ec; [discriminate|]. apply no_elt_none in Ec. apply deep_kids; [apply proper; [voc | none | none | none | intros _; exact Ec] | intros _ _; exact (bare_kids _ Ec)].
    + destruct (att "type" a) as [v|] eqn:Et; [|discriminate]. apply att_In in Et. destruct (no_attrs_except a _) eqn:Ea; [|discriminate]. destruct (data_type (a :: up) v); [|discriminate]. destruct (data_children _ kids) as [r|] eqn:Ed; [|discriminate].
      apply deep_kids; [apply proper; [voc | attr1 Et | attrs Ea | none | none]|]. intros _ _. apply (data_deep _ _ _ Ed). intros x xa xs xk Hx -> y z Hy _ Ez. eapply IHp; [|exact Ez].
      apply (kid_size (Some rng_uri) (lit "data") a sc) in Hx. apply (kid_size (Some rng_uri) (lit "except") xa xs) in Hy. lia.
    + destruct (no_attrs_except a []) eqn:Ea; [|discriminate]. destruct (no_rng_children kids) eqn:Ec; [|discriminate]. apply no_rng_none in Ec. apply deep_kids; [apply proper; [voc | none | attrs Ea | none | intros _; exact Ec] | intros _ _; exact (bare_kids _ Ec)].
    + destruct (att "href" a) as [v|] eqn:Et; [|discriminate]. apply att_In in Et. apply deep_kids; [apply proper; [voc | attr1 Et | none | none | none]|]. intros H _. exfalso. exact (H eq_refl).
    + apply opt1_some in E as (l & El & _). apply deep_kids; [apply proper; [voc | none | none | none | none]|]. intros _ _ k Hk Hr. destruct (each_some _ _ _ El k Hk Hr) as [z Hz]. eapply IHg; [|exact Hz]. apply (kid_size (Some rng_uri) (lit "grammar") a sc) in Hk. lia.
  - intros n up g HN E. destruct n as [ns nm a sc kids| | |]; try discriminate E. cbn [grammar_content] in E. destruct (is_rng ns) eqn:Er; [|discriminate E]. apply is_rng_true in Er. subst ns.
    destruct (find_entry nm content_kinds) as [kd|] eqn:Ek; [|discriminate E]. apply find_entry_name' in Ek as (nk & Hk & ->). cbn in Hk. repeat (destruct Hk as [Hk|Hk]; [injection Hk as <- <-|]); [..|destruct Hk].
    + apply opt1_some in E as (x & Ex & _). exact (Ds "start"%string a sc kids (a :: up) x (or_introl eq_refl) HN Ex).
    + apply opt1_some in E as (x & Ex & _). exact (Ds "define"%string a sc kids (a :: up) x (or_intror eq_refl) HN Ex).
    + apply opt1_some in E as (l & El & _). apply deep_kids; [apply proper; [voc | none | none | none | none]|]. intros _ _ k Hk Hr. destruct (each_some _ _ _ El k Hk Hr) as [z Hz]. eapply IHg; [|exact Hz]. apply (kid_size (Some rng_uri) (lit "div") a sc) in Hk. lia.
    + destruct (att "href" a) as [h|] eqn:Et; [|discriminate]. apply att_In in Et. change (match each (include_content U (a :: up)) kids with Some l => Some (GInclude [rebase_path (a :: up) h] None (Some l)) | None => None end = Some g) in E.
      destruct (each (include_content U (a :: up)) kids) as [l|] eqn:El; [|discriminate]. apply deep_kids; [apply proper; [voc | attr1 Et | none | none | none]|].
      intros _ _ k Hk Hr. destruct (each_some _ _ _ El k Hk Hr) as [z Hz]. eapply IHi; [|exact Hz]. apply (kid_size (Some rng_uri) (lit "include") a sc) in Hk. lia.
  - intros n up g HN E. destruct n as [ns nm a sc kids| | |]; try discriminate E. cbn [include_content] in E. destruct (is_rng ns) eqn:Er; [|discriminate E]. apply is_rng_true in Er. subst ns.
    destruct (find_entry nm content_kinds) as [kd|] eqn:Ek; [|discriminate E]. apply find_entry_name' in Ek as (nk & Hk & ->). cbn in Hk. repeat (destruct Hk as [Hk|Hk]; [injection Hk as <- <-|]); [..|destruct Hk].
    + apply opt1_some in E as (x & Ex & _). exact (Ds "start"%string a sc kids (a :: up) x (or_introl eq_refl) HN Ex).
    + apply opt1_some in E as (x & Ex & _). exact (Ds "define"%string a sc kids (a :: up) x (or_intror eq_refl) HN Ex).
    + apply opt1_some in E as (l & El & _). apply deep_kids; [apply proper; [voc | none | none | none | none]|]. intros _ _ k Hk Hr. destruct (each_some _ _ _ El k Hk Hr) as [z Hz]. eapply IHi; [|exact Hz]. apply (kid_size (Some rng_uri) (lit "div") a sc) in Hk. lia.
    + discriminate E.
Qed.
Lemma accepted_proper X s : parse U X = Some s -> forall nm atts sc kids, Seen X (XElt (Some rng_uri) nm atts sc kids) -> Proper nm atts kids.
Proof.
  intros E nm' atts' sc' kids' HS. enough (HD : deep X) by exact (HD _ HS eq_refl). clear HS nm' atts' sc' kids'.
  destruct (deep_all (S (xsize X))) as (HP & HG & _). unfold parse in E. destruct X as [ns nm a sc kids| | |]; try discriminate E. destruct (is_rng ns) eqn:Er; [|discriminate E]. apply is_rng_true in Er. subst ns.
  destruct (str_eqb nm (lit "grammar")) eqn:En.
  - apply str_eqb_eq in En. subst nm. destruct (each _ kids) as [l|] eqn:El; [|discriminate]. apply deep_kids; [apply proper; [voc | none | none | none | none]|]. intros _ _ k Hk Hr. destruct (each_some _ _ _ El k Hk Hr) as [z Hz].
    eapply HG; [|exact Hz]. apply (kid_size (Some rng_uri) (lit "grammar") a sc) in Hk. lia.
  - destruct (pattern U [] _) as [p|] eqn:Ep; [|discriminate]. exact (HP (XElt (Some rng_uri) nm a sc kids) [] p (Nat.lt_succ_diag_r _) Ep).
Qed.
End Proof.
