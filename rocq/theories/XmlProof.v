(** * XmlProof: the parser of the XML syntax reads what RngXml.v says, on the documents of XmlScope.v. *)
From Coq Require Import String.
From Verif Require Import Base Datatype Facets DatatypeSpec DatatypeMain Syntax XmlSyntax RngXml XmlScope XmlBase.

Fixpoint xsize (n : xnod) : nat :=
  match n with XElt _ _ _ _ kids => S ((fix go ks := match ks with [] => 0 | k :: ks' => xsize k + go ks' end) kids) | _ => 0 end%nat.
Lemma kid_size ns nm a sc kids k : In k kids -> (xsize k < xsize (XElt ns nm a sc kids))%nat.
Proof.
  cbn. intros H. apply Nat.lt_succ_r. induction kids as [|x kids IH]; [destruct H|]. destruct H as [->|H]; [lia|]. specialize (IH H). lia.
Qed.
Lemma lit_inj a b : lit a = lit b -> a = b.
Proof.
  revert b. induction a as [|c a IH]; intros [|d b] H; try discriminate H; [reflexivity|]. cbn in H. injection H as H1 H2. apply IH in H2. subst.
  f_equal. rewrite <- (Ascii.ascii_N_embedding c), <- (Ascii.ascii_N_embedding d). congruence.
Qed.

Section Proof.
Variable U : str -> bool.
Definition Ok (up : ups) (n : xnod) : Prop :=
  (forall up' nm atts sc kids, Within up n up' (XElt (Some rng_uri) (lit nm) atts sc kids) -> Local U up' nm atts sc kids) /\ Forall distinct up /\ bases_clean up.
Lemma Ok_local up nm atts sc kids : Ok up (XElt (Some rng_uri) (lit nm) atts sc kids) -> Local U up nm atts sc kids.
Proof. intros [H _]. apply H. constructor. Qed.
Lemma Ok_kid up nm atts sc kids k : Ok up (XElt (Some rng_uri) (lit nm) atts sc kids) -> In k kids -> Ok (atts :: up) k.
Proof.
  intros HO Hk. pose proof (Ok_local _ _ _ _ _ HO) as L. destruct HO as (H & H1 & H2). split; [|split].
  - intros up' nm' a' sc' ks' HW. apply H. apply (Wi_kid up (lit nm) atts sc kids k up' _ Hk HW).
  - constructor; [apply (l_distinct _ _ _ _ _ _ L) | exact H1].
  - constructor; [apply (l_base _ _ _ _ _ _ L) | exact H2].
Qed.
Lemma Ok_up up nm atts sc kids : Ok up (XElt (Some rng_uri) (lit nm) atts sc kids) -> Forall distinct (atts :: up) /\ bases_clean (atts :: up).
Proof.
  intros HO. pose proof (Ok_local _ _ _ _ _ HO) as L. destruct HO as (H & H1 & H2).
  split; constructor; [apply (l_distinct _ _ _ _ _ _ L) | exact H1 | apply (l_base _ _ _ _ _ _ L) | exact H2].
Qed.
Lemma Ok_blank up nm atts sc kids : Ok up (XElt (Some rng_uri) (lit nm) atts sc kids) -> existsb (String.eqb nm) string_names = false -> texts_blank kids.
Proof.
  intros HO Hn s. apply (l_text _ _ _ _ _ _ (Ok_local _ _ _ _ _ HO)). intros Hi. assert (E : existsb (String.eqb nm) string_names = true); [|congruence].
  apply existsb_exists. exists nm. split; [exact Hi | apply String.eqb_refl].
Qed.
Lemma In_dec_names (nm : string) l : existsb (String.eqb nm) l = true <-> In nm l.
Proof. rewrite existsb_exists. split; [intros (x & H & E); apply String.eqb_eq in E; subst; exact H | intros H; exists nm; split; [exact H | apply String.eqb_refl]]. Qed.
Lemma not_In_names (nm : string) l : existsb (String.eqb nm) l = false -> ~ In nm l.
Proof. intros H Hi. apply In_dec_names in Hi. congruence. Qed.

(** children read by any reader *)
Lemma each_ok {A} (f : xnod -> option A) (R : xnod -> A -> Prop) kids : texts_blank kids ->
  (forall k, In k kids -> forall x, f k = Some x <-> R k x) -> forall l, each f kids = Some l <-> exists ks, Elements kids ks /\ Forall2 R ks l.
Proof.
  intros Hb Hf l. rewrite each_filter. rewrite (map_opt_Forall2 f R) by (intros x Hx; apply Hf; apply filter_In in Hx; apply Hx). split.
  - intros H. exists (filter is_rng_el kids). split; [apply Elements_ex; exact Hb | exact H].
  - intros (ks & H1 & H2). apply Elements_filter in H1. subst ks. exact H2.
Qed.
Lemma joined_each {A} (f : xnod -> option A) (R : xnod -> A -> Prop) op kids : texts_blank kids ->
  (forall k, In k kids -> forall x, f k = Some x <-> R k x) -> forall y, joined op (each f kids) = Some y <-> exists ks l, Elements kids ks /\ Forall2 R ks l /\ Chain op l y.
Proof.
  intros Hb Hf y. pose proof (each_ok f R kids Hb Hf) as H. destruct (each f kids) as [l|].
  - rewrite joined_ok. split; [intros HC; destruct (proj1 (H l) eq_refl) as (ks & H1 & H2); eauto|]. intros (ks & l' & H1 & H2 & H3).
    assert (E : Some l = Some l') by (apply H; eauto). injection E as ->. exact H3.
  - split; [discriminate|]. intros (ks & l' & H1 & H2 & H3). assert (E : None = Some l') by (apply H; eauto). discriminate E.
Qed.
Lemma Elements_in kids l k : Elements kids l -> In k l -> In k kids.
Proof. intros H Hk. apply Elements_filter in H. subst l. apply filter_In in Hk. apply Hk. Qed.
Lemma Elements_nil kids : texts_blank kids -> (no_rng_children kids = true <-> Elements kids []).
Proof.
  intros Hb. rewrite (Elements_iff _ _ Hb). unfold no_rng_children. rewrite negb_true_iff. split.
  - intros H. induction kids as [|k ks IH]; [reflexivity|]. cbn in *. apply orb_false_iff in H as [H1 H2]. rewrite H1. apply IH; [apply (texts_blank_cons _ _ Hb) | exact H2].
  - intros H. induction kids as [|k ks IH]; [reflexivity|]. cbn in *. destruct (is_rng_el k); [discriminate H|]. apply IH; [apply (texts_blank_cons _ _ Hb) | exact H].
Qed.

(** strings *)
Lemma string_kids up nm atts sc kids : Local U up nm atts sc kids -> In nm string_names ->
  kids = [] \/ (exists s, kids = [XTxt s]) \/ existsb is_elt kids = true.
Proof.
  intros L Hn. pose proof (l_string _ _ _ _ _ _ L Hn) as Hk. pose proof (l_adjacent _ _ _ _ _ _ L) as Ha.
  destruct (existsb is_elt kids) eqn:E; [auto|]. destruct kids as [|k ks]; [auto|]. right. left.
  assert (Ht : forall x, In x (k :: ks) -> exists s, x = XTxt s).
  { intros x Hx. specialize (Hk x Hx). destruct x as [? ? ? ? ?|s|s|]; [|eauto|destruct Hk|destruct Hk].
    exfalso. assert (existsb is_elt (k :: ks) = true); [|congruence]. apply existsb_exists. eexists. split; [exact Hx | reflexivity]. }
  destruct (Ht k (or_introl eq_refl)) as (s & ->). destruct ks as [|k' ks]; [eauto|]. exfalso.
  destruct (Ht k' (or_intror (or_introl eq_refl))) as (t & ->). apply (Ha [] s t ks). reflexivity.
Qed.
Lemma StringIn_elt kids s : StringIn kids s -> existsb is_elt kids = false.
Proof. induction 1; cbn; auto. Qed.
Lemma StringIn_one s t : StringIn [XTxt s] t <-> t = s.
Proof. split; [intros H; inversion H as [|? ? ? H1| |]; subst; inversion H1; subst; apply app_nil_r|]. intros ->. rewrite <- (app_nil_r s) at 2. constructor. constructor. Qed.
Lemma StringIn_nil t : StringIn [] t <-> t = [].
Proof. split; [intros H; inversion H; reflexivity | intros ->; constructor]. Qed.

(** ** Name classes *)
Definition inexc (w : place) : bool := match w with Outside => false | _ => true end.
Definition no_nsname (up : ups) (n : xnod) : Prop := forall up' a s ks, ~ Within up n up' (XElt (Some rng_uri) (lit "nsName") a s ks).
Lemma qname_el_ok up atts sc kids q : Ok up (XElt (Some rng_uri) (lit "name") atts sc kids) ->
  (qname_el (atts :: up) kids = Some q <-> exists s ns, StringIn kids s /\ InForce "ns" (atts :: up) ns /\ QName sc ns s q).
Proof.
  intros HO. pose proof (Ok_local _ _ _ _ _ HO) as L. destruct (Ok_up _ _ _ _ _ HO) as [HD _]. unfold qname_el.
  destruct (string_kids _ _ _ _ _ L ltac:(apply In_dec_names; reflexivity)) as [->|[(s & ->)|E]].
  - cbn. split; [discriminate|]. intros (s & ns & H & _ & HQ). apply StringIn_nil in H. subst s. inversion HQ as [? l [(a & b & E & _) Hl]|? p l u (a & b & E & _) Hp Hl]; subst.
    + destruct a; [|discriminate E]. destruct l; [|discriminate E]. destruct (NCName_nonempty _ Hl eq_refl).
    + destruct a; [|discriminate E]. destruct p; discriminate E.
  - cbn [existsb is_elt orb]. pose proof (l_no_prefix _ _ _ _ _ _ L eq_refl s (or_introl eq_refl)) as Hc. pose proof (proj2 (l_clear _ _ _ _ _ _ L) s (or_introl eq_refl)) as Hs.
    rewrite (proj2 (find_colon_none s) Hc). split.
    + destruct (ncname s) as [l|] eqn:E; [|discriminate]. intros [= <-]. exists s, (or_empty (inherited "ns" (atts :: up))).
      split; [apply StringIn_one; reflexivity|]. split; [apply InForce_ok; exact HD|]. apply Q_plain. apply ncname_ok; assumption.
    + intros (t & ns & H & HI & HQ). apply StringIn_one in H. subst t. inversion HQ as [? l HN|? p l u (a & b & E & _) Hp Hl]; subst.
      * apply ncname_ok in HN; [|exact Hs]. rewrite HN. apply inherited_ok in HI; [|exact HD]. rewrite HI. reflexivity.
      * exfalso. apply Hc. rewrite !in_app_iff. right; left; right; left; left; reflexivity.
  - rewrite E. split; [discriminate|]. intros (s & ns & H & _). apply StringIn_elt in H. congruence.
Qed.
Lemma except_child_filter {A} (f : list xatt -> xnod -> option A) op kids :
  except_child f op kids = match filter is_rng_el kids with
                           | [] => Some None
                           | [XElt _ nm a _ gk] => if str_eqb nm (lit "except") then match joined op (each (f a) gk) with Some x => Some (Some x) | None => None end else None
                           | _ => None
                           end.
Proof.
  induction kids as [|k ks IH]; [reflexivity|]. cbn [except_child filter]. destruct (is_rng_el k) eqn:E; [|exact IH].
  destruct k as [ns nm a sc gk| | |]; try discriminate E. destruct (existsb is_rng_el ks) eqn:E2.
  - destruct (filter is_rng_el ks) eqn:E3; [|destruct (str_eqb nm _); reflexivity]. exfalso. apply existsb_exists in E2 as (x & H1 & H2).
    assert (H : In x (filter is_rng_el ks)) by (apply filter_In; auto). rewrite E3 in H. destruct H.
  - destruct (filter is_rng_el ks) as [|x l] eqn:E3; [reflexivity|]. exfalso. assert (H : In x (filter is_rng_el ks)) by (rewrite E3; left; reflexivity).
    apply filter_In in H. assert (existsb is_rng_el ks = true); [|congruence]. apply existsb_exists. exists x. exact H.
Qed.
(** an optional <except>, for any reader of its children *)
Lemma except_ok {A} (f : list xatt -> xnod -> option A) (R : list xatt -> xnod -> A -> Prop) op up nm atts sc kids :
  Ok up (XElt (Some rng_uri) (lit nm) atts sc kids) -> existsb (String.eqb nm) string_names = false ->
  (forall k a s gk g, In k kids -> k = XElt (Some rng_uri) (lit "except") a s gk -> In g gk -> forall x, f a g = Some x <-> R a g x) ->
  forall e, except_child f op kids = Some e <->
    e = None /\ Elements kids [] \/
    exists n a s ek ks cs c, e = Some c /\ Elements kids [n] /\ Rng n "except" a s ek /\ Only a [] /\ LibOk U a /\ Elements ek ks /\ Forall2 (R a) ks cs /\ Chain op cs c.
Proof.
  intros HO Hnm Hf e. pose proof (Ok_blank _ _ _ _ _ HO Hnm) as Hb. rewrite except_child_filter. pose proof (Elements_ex _ Hb) as HE. destruct (filter is_rng_el kids) as [|n [|n' l]] eqn:El.
  - split; [intros [= <-]; left; auto|]. intros [[-> _]|(n & a & s & ek & ks & cs & c & _ & H & _)]; [reflexivity|]. apply Elements_filter in H. rewrite El in H. discriminate H.
  - destruct (filter_In_kids kids n) as [Hin (nm' & a & s & ek & ->)]; [rewrite El; left; reflexivity|]. destruct (str_eqb nm' (lit "except")) eqn:En.
    + apply str_eqb_eq in En. subst nm'. pose proof (Ok_kid _ _ _ _ _ _ HO Hin) as HO'. pose proof (Ok_local _ _ _ _ _ HO') as L'.
      pose proof (joined_each (f a) (R a) op ek (Ok_blank _ _ _ _ _ HO' eq_refl) (fun g Hg => Hf _ a s ek g Hin eq_refl Hg)) as HJ. split.
      * destruct (joined op (each (f a) ek)) as [x|] eqn:Ej; [|discriminate]. intros [= <-]. right. destruct (proj1 (HJ x) eq_refl) as (ks & l & H1 & H2 & H3).
        exists (XElt (Some rng_uri) (lit "except") a s ek), a, s, ek, ks, l, x. split; [reflexivity|]. split; [exact HE|]. split; [reflexivity|]. split; [apply (l_only _ _ _ _ _ _ L'); apply not_In_names; reflexivity|].
        split; [apply (l_lib _ _ _ _ _ _ L'); left; apply not_In_names; reflexivity|]. auto.
      * intros [[_ H]|(n & a' & s' & ek' & ks & cs & c & -> & H & HR & _ & _ & H1 & H2 & H3)]; apply Elements_filter in H; rewrite El in H; [discriminate H|].
        injection H as H. rewrite HR in H. injection H as -> -> ->. assert (E : joined op (each (f a) ek) = Some c) by (apply HJ; eauto). rewrite E. reflexivity.
    + split; [discriminate|]. intros [[_ H]|(n & a' & s' & ek' & ks & cs & c & -> & H & HR & _)]; apply Elements_filter in H; rewrite El in H; [discriminate H|].
      injection H as H. rewrite HR in H. apply str_eqb_neq in En. congruence.
  - assert (E : (match n with XElt _ _ _ _ _ => None | _ => None end : option (option A)) = None) by (destruct n; reflexivity).
    split; [destruct n; discriminate|]. intros [[_ H]|(x & a' & s' & ek' & ks & cs & c & -> & H & _)]; apply Elements_filter in H; rewrite El in H; discriminate H.
Qed.
Lemma name_class_eq up w ns nm atts sc kids : name_class up w (XElt ns nm atts sc kids) =
  if is_rng ns then
    if str_eqb nm (lit "name") then match qname_el (atts :: up) kids with Some q => Some (CName q) | None => None end
    else if str_eqb nm (lit "anyName") then
      if w then None
      else match except_child (fun a => name_class (a :: atts :: up) true) CAlt kids with Some e => Some (CAny e) | None => None end
    else if str_eqb nm (lit "nsName") then
      match except_child (fun a => name_class (a :: atts :: up) true) CAlt kids with
      | Some e => Some (CNs (NsUri [or_empty (inherited "ns" (atts :: up))]) e)
      | None => None
      end
    else if str_eqb nm (lit "choice") then joined CAlt (each (name_class (atts :: up) w) kids)
    else None
  else None.
Proof. reflexivity. Qed.
Ltac rng R := unfold Rng in R; first [discriminate R | injection R; clear R; intros; repeat match goal with E : ?x = ?y |- _ => is_var x; is_var y; subst y end].
Lemma name_class_ok : forall N n, (xsize n < N)%nat -> forall up w, Ok up n -> (w = InNsName -> no_nsname up n) -> forall c, name_class up (inexc w) n = Some c <-> RN U up w n c.
Proof.
  induction N as [|N IH]; intros n HN up w HO Hw c; [lia|]. destruct n as [ns nm atts sc kids|s|s|].
  2-4: split; [discriminate | intros H; inversion H; match goal with R : Rng _ _ _ _ _ |- _ => discriminate R end].
  rewrite name_class_eq. destruct (is_rng ns) eqn:Er.
  2:{ split; [discriminate|]. intros H. assert (Hx : exists nm' a' s' k', XElt ns nm atts sc kids = XElt (Some rng_uri) nm' a' s' k') by (inversion H; match goal with R : Rng _ _ _ _ _ |- _ => rewrite R; eauto end).
      destruct Hx as (? & ? & ? & ? & [= -> _ _ _ _]). discriminate Er. }
  apply is_rng_true in Er. subst ns.
  assert (Hex : forall nm', nm = lit nm' -> existsb (String.eqb nm') string_names = false -> forall w', w' <> Outside -> (w' = InNsName -> forall k, In k kids -> no_nsname (atts :: up) k) ->
            forall e, except_child (fun a => name_class (a :: atts :: up) true) CAlt kids = Some e <-> RE U w' (atts :: up) kids e).
  { intros nm' -> Hs w' Hw1 Hw2 e. rewrite (except_ok _ (fun a => RN U (a :: atts :: up) w') CAlt _ _ _ _ _ HO Hs).
    - split.
      + intros [[-> H]|(n & a & s & ek & ks & cs & d & -> & H1 & H2 & H3 & H4 & H5 & H6 & H7)]; [constructor; exact H | econstructor; eassumption].
      + intros H. inversion H as [? ? ? HE|? ? ? n a s ek ks cs d H1 H2 H3 H4 H5 H6 H7]; subst; [left; auto | right]. exists n, a, s, ek, ks, cs, d. auto 9.
    - intros k a s gk g Hk -> Hg x. pose proof (Ok_kid _ _ _ _ _ _ HO Hk) as HO'. pose proof (Ok_kid _ _ _ _ _ _ HO' Hg) as HO''.
      replace true with (inexc w') by (destruct w'; [congruence | reflexivity | reflexivity]). apply IH.
      + apply (kid_size (Some rng_uri) (lit nm') atts sc) in Hk. apply (kid_size (Some rng_uri) (lit "except") a s) in Hg. lia.
      + exact HO''.
      + intros E up' a' s' ks' HW. apply (Hw2 E _ Hk up' a' s' ks'). apply (Wi_kid _ _ _ _ _ g); assumption. }
  destruct (str_eqb nm (lit "name")) eqn:E1; [|destruct (str_eqb nm (lit "anyName")) eqn:E2; [|destruct (str_eqb nm (lit "nsName")) eqn:E3; [|destruct (str_eqb nm (lit "choice")) eqn:E4]]].
  - apply str_eqb_eq in E1. subst nm. pose proof (Ok_local _ _ _ _ _ HO) as L. pose proof (fun q => qname_el_ok up atts sc kids q HO) as HQ.
    split.
    + destruct (qname_el (atts :: up) kids) as [q|] eqn:Eq; [|discriminate]. intros [= <-]. destruct (proj1 (HQ q) eq_refl) as (s & ns & H1 & H2 & H3).
      apply (RN_name U up w _ atts sc kids s ns q); auto; [reflexivity | apply (l_only _ _ _ _ _ _ L), not_In_names; reflexivity | apply (l_lib _ _ _ _ _ _ L); left; apply not_In_names; reflexivity].
    + intros H. inversion H as [? ? ? ? ? ? s ns q R H1 H2 H3 H4 H5|? ? ? ? ? ? R|? ? ? ? ? ? ? ? R|? ? ? ? ? ? ? ? ? R]; subst; rng R.
      assert (Eq : qname_el (atts :: up) kids = Some q) by (apply HQ; eauto). rewrite Eq. reflexivity.
  - apply str_eqb_eq in E2. subst nm. pose proof (Ok_local _ _ _ _ _ HO) as L. specialize (Hex _ eq_refl eq_refl InAnyName ltac:(discriminate) ltac:(discriminate)).
    split.
    + destruct w; [|discriminate|discriminate]. cbn [inexc]. destruct (except_child _ _ _) as [e|] eqn:Ee; [|discriminate]. intros [= <-]. pose proof (proj1 (Hex e) eq_refl) as He.
      apply (RN_any U up _ atts sc kids e); auto; [reflexivity | apply (l_only _ _ _ _ _ _ L), not_In_names; reflexivity | apply (l_lib _ _ _ _ _ _ L); left; apply not_In_names; reflexivity].
    + intros H. inversion H as [? ? ? ? ? ? ? ? ? R|? ? ? ? ? e R H1 H2 H3|? ? ? ? ? ? ? ? R|? ? ? ? ? ? ? ? ? R]; subst; rng R. apply Hex in H3. cbn [inexc]. rewrite H3. reflexivity.
  - apply str_eqb_eq in E3. subst nm. pose proof (Ok_local _ _ _ _ _ HO) as L. destruct (Ok_up _ _ _ _ _ HO) as [HD _].
    specialize (Hex _ eq_refl eq_refl InNsName ltac:(discriminate) (fun _ k Hk up' a' s' ks' => l_nsname _ _ _ _ _ _ L eq_refl k up' a' s' ks' Hk)).
    assert (Hw' : w <> InNsName) by (intros E; apply (Hw E up atts sc kids); constructor). split.
    + destruct (except_child _ _ _) as [e|] eqn:Ee; [|discriminate]. intros [= <-]. pose proof (proj1 (Hex e) eq_refl) as He.
      apply (RN_ns U up w _ atts sc kids); auto; [reflexivity | apply (l_only _ _ _ _ _ _ L), not_In_names; reflexivity | apply (l_lib _ _ _ _ _ _ L); left; apply not_In_names; reflexivity | apply InForce_ok; exact HD].
    + intros H. inversion H as [? ? ? ? ? ? ? ? ? R|? ? ? ? ? ? R|? ? ? ? ? ? ns e R H1 H2 H3 H4 H5|? ? ? ? ? ? ? ? ? R]; subst; rng R. apply Hex in H5. rewrite H5.
      apply inherited_ok in H4; [|exact HD]. rewrite H4. reflexivity.
  - apply str_eqb_eq in E4. subst nm. pose proof (Ok_local _ _ _ _ _ HO) as L.
    rewrite (joined_each _ (RN U (atts :: up) w) CAlt kids (Ok_blank _ _ _ _ _ HO eq_refl)).
    + split.
      * intros (ks & l & H1 & H2 & H3). assert (HL : LibOk U atts).
        { apply (l_lib _ _ _ _ _ _ L). right; left; reflexivity. }
        apply (RN_choice U up w _ atts sc kids ks l c); auto; [reflexivity | apply (l_only _ _ _ _ _ _ L), not_In_names; reflexivity].
      * intros H. inversion H as [? ? ? ? ? ? ? ? ? R|? ? ? ? ? ? R|? ? ? ? ? ? ? ? R|? ? ? ? ? ? ks cs ? R H1 H2 H3 H4 H5]; subst; rng R. eauto.
    + intros k Hk x. apply IH; [apply (kid_size (Some rng_uri) (lit "choice") atts sc) in Hk; lia | exact (Ok_kid _ _ _ _ _ _ HO Hk)|].
      intros E up' a' s' ks' HW. apply (Hw E up' a' s' ks'). apply (Wi_kid _ _ _ _ _ k); assumption.
  - split; [discriminate|]. apply str_eqb_neq in E1, E2, E3, E4. intros H. inversion H; match goal with R : Rng _ _ _ _ _ |- _ => unfold Rng in R; injection R; congruence end.
Qed.

Lemma Chain_all {A} (P : A -> Prop) op l y : (forall a b, P a -> P b -> P (op a b)) -> Chain op l y -> Forall P l -> P y.
Proof.
  intros Hop. induction 1 as [x|l x y H IH]; intros HF; [inversion HF; assumption|]. apply Forall_app in HF as [H1 H2]. inversion H2; subst. apply Hop; auto.
Qed.
Lemma Forall2_right {A B} (R : A -> B -> Prop) (P : B -> Prop) l m : Forall2 R l m -> (forall x y, In x l -> R x y -> P y) -> Forall P m.
Proof. induction 1 as [|x y l m H HF IH]; intros Hp; constructor; [apply (Hp x y); [left; reflexivity | exact H] | apply IH; intros a b Ha; apply Hp; right; exact Ha]. Qed.
Lemma no_xmlns_alt a b : no_xmlns a -> no_xmlns b -> no_xmlns (CAlt a b).
Proof. intros Ha Hb. exact (conj Ha Hb). Qed.
Lemma RN_no_xmlns : forall N n, (xsize n < N)%nat -> forall up w c, Ok up n -> RN U up w n c -> no_xmlns c.
Proof.
  induction N as [|N IH]; intros n HN up w c HO H; [lia|].
  assert (HE : forall nm atts sc kids w' e, n = XElt (Some rng_uri) (lit nm) atts sc kids -> RE U w' (atts :: up) kids e -> match e with Some d => no_xmlns d | None => True end).
  { intros nm atts sc kids w' e -> He. inversion He as [|? ? ? n a s ek ks cs d H1 H2 H3 H4 H5 H6 H7]; subst; [exact I|].
    assert (Hk : In n kids) by (apply (Elements_in _ _ _ H1); left; reflexivity). unfold Rng in H2. subst n. pose proof (Ok_kid _ _ _ _ _ _ HO Hk) as HO'.
    apply (Chain_all no_xmlns _ _ _ no_xmlns_alt H7). apply (Forall2_right _ _ _ _ H6). intros g y Hg. apply IH.
    - apply (Elements_in _ _ _ H5) in Hg. apply (kid_size (Some rng_uri) (lit nm) atts sc) in Hk. apply (kid_size (Some rng_uri) (lit "except") a s) in Hg. lia.
    - apply (Ok_kid _ _ _ _ _ _ HO' (Elements_in _ _ _ H5 Hg)). }
  inversion H as [? ? ? atts sc kids s ns q R H1 H2 H3 H4 H5|? ? atts sc kids e R H1 H2 H3|? ? ? atts sc kids ns e R H1 H2 H3 H4 H5|? ? ? atts sc kids ks cs ? R H1 H2 H3 H4 H5]; subst; unfold Rng in R; subst n.
  - pose proof (Ok_local _ _ _ _ _ HO) as L. destruct (l_class_xmlns _ _ _ _ _ _ L ltac:(apply In_dec_names; reflexivity)) as [Hx Hs].
    destruct (string_kids _ _ _ _ _ L ltac:(apply In_dec_names; reflexivity)) as [->|[(t & ->)|E]].
    + apply StringIn_nil in H3. subst s. exfalso. inversion H5 as [? l [(a & b & E & _) Hl]|? p l u (a & b & E & _) Hp Hl]; subst.
      * destruct a; [|discriminate E]. destruct l; [|discriminate E]. destruct (NCName_nonempty _ Hl eq_refl).
      * destruct a; [|discriminate E]. destruct p; discriminate E.
    + apply StringIn_one in H3. subst s. inversion H5 as [? l [HP Hl]|? p l u (a & b & E & _) Hp Hl]; subst.
      * cbn. split; [intros [= ->]; exact (Hx H4)|]. intros [_ E]. subst l. exact (Hs _ (or_introl eq_refl) HP).
      * exfalso. apply (l_no_prefix _ _ _ _ _ _ L eq_refl _ (or_introl eq_refl)). rewrite !in_app_iff. right; left; right; left; left; reflexivity.
    + apply StringIn_elt in H3. congruence.
  - exact (HE _ _ _ _ _ _ eq_refl H3).
  - pose proof (Ok_local _ _ _ _ _ HO) as L. destruct (l_class_xmlns _ _ _ _ _ _ L ltac:(apply In_dec_names; reflexivity)) as [Hx _].
    split; [intros [= ->]; exact (Hx H4) | exact (HE _ _ _ _ _ _ eq_refl H5)].
  - apply (Chain_all no_xmlns _ _ _ no_xmlns_alt H5). apply (Forall2_right _ _ _ _ H4). intros g y Hg. pose proof (Elements_in _ _ _ H3 Hg) as Hk. apply IH.
    + apply (kid_size (Some rng_uri) (lit "choice") atts sc) in Hk. lia.
    + apply (Ok_kid _ _ _ _ _ _ HO Hk).
Qed.

(** ** Patterns *)
Lemma the_name_ok up nm atts sc kids i : Local U up nm atts sc kids -> (the_name atts = Some i <-> exists v, Has atts "name" v /\ Named v i).
Proof.
  intros L. pose proof (l_distinct _ _ _ _ _ _ L) as Hd. unfold the_name. destruct (att "name" atts) as [v|] eqn:E.
  - apply att_Has in E; [|exact Hd]. assert (Hv : clear v) by (pose proof (proj1 (l_clear _ _ _ _ _ _ L)) as H; rewrite Forall_forall in H; exact (H _ E)).
    rewrite attr_ncname_ok by exact Hv. split; [eauto|]. intros (w & Hw & HN). rewrite (Has_unique _ _ _ _ Hd Hw E) in HN. exact HN.
  - apply att_Lacks in E; [|exact Hd]. split; [discriminate|]. intros (v & Hv & _). destruct (E v Hv).
Qed.
Lemma clear_att up nm atts sc kids n v : Local U up nm atts sc kids -> Has atts n v -> clear v.
Proof. intros L H. pose proof (proj1 (l_clear _ _ _ _ _ _ L)) as HF. rewrite Forall_forall in HF. exact (HF _ H). Qed.
Lemma param_ok up atts sc kids p : Ok up (XElt (Some rng_uri) (lit "param") atts sc kids) -> (param_el (XElt (Some rng_uri) (lit "param") atts sc kids) = Some p <-> Param U (XElt (Some rng_uri) (lit "param") atts sc kids) p).
Proof.
  intros HO. pose proof (Ok_local _ _ _ _ _ HO) as L.
  assert (HN : forall i, the_name atts = Some i <-> exists v, Has atts "name" v /\ Named v i) by (intros i; apply (the_name_ok _ _ _ _ _ i L)).
  assert (Hk : exists s, kids = [XTxt s]).
  { destruct (string_kids _ _ _ _ _ L ltac:(apply In_dec_names; reflexivity)) as [H|[H|E]]; [destruct (l_param _ _ _ _ _ _ L eq_refl H) | exact H|].
    exfalso. apply existsb_exists in E as (k & Hk & Ek). pose proof (l_string _ _ _ _ _ _ L ltac:(apply In_dec_names; reflexivity) k Hk) as Hs. destruct k; try discriminate Ek. apply Hs. reflexivity. }
  destruct Hk as (s & ->). unfold param_el. cbn [node_text]. unfold the_name in HN. split.
  - destruct (att "name" atts) as [v|]; [|discriminate]. destruct (attr_ncname v) as [i|] eqn:Ei; [|discriminate]. intros [= <-]. destruct (proj1 (HN i) eq_refl) as (w & H1 & H2).
    apply (Pm U _ atts sc [XTxt s] w i s); auto; [reflexivity | apply (l_only _ _ _ _ _ _ L), not_In_names; reflexivity | apply (l_lib _ _ _ _ _ _ L); left; apply not_In_names; reflexivity | apply StringIn_one; reflexivity].
  - intros H. inversion H as [? a' sc' k' v i t R H1 H2 H3 H4 H5]; subst. unfold Rng in R. injection R; clear R; intros; subst a' sc' k'. assert (E : match att "name" atts with Some v => attr_ncname v | None => None end = Some i) by (apply HN; eauto).
    apply StringIn_one in H5. subst t. destruct (att "name" atts) as [w|]; [|discriminate E]. rewrite E. reflexivity.
Qed.

Ltac kind :=
  match goal with
  | C : Compound _ _ _, R : Rng _ _ _ _ _ |- _ => unfold Rng in R; destruct C; first [discriminate R | rng R]
  | C : Simple _ _, R : Rng _ _ _ _ _ |- _ => unfold Rng in R; destruct C; first [discriminate R | rng R]
  | C : Reference _ _, R : Rng _ _ _ _ _ |- _ => unfold Rng in R; destruct C; first [discriminate R | rng R]
  | R : Rng (XElt _ _ _ _ _) _ _ _ _ |- _ => rng R
  end.
Lemma Rng_parts ns nm atts sc kids nm' a' s' k' : Rng (XElt ns nm atts sc kids) nm' a' s' k' -> ns = Some rng_uri /\ nm = lit nm' /\ atts = a' /\ sc = s' /\ kids = k'.
Proof. unfold Rng. intros [= -> -> -> -> ->]. auto. Qed.
(** what [RP] requires of any pattern *)
Lemma RP_rng up ns nm atts sc kids p : RP U up (XElt ns nm atts sc kids) p -> ns = Some rng_uri /\ LibOk U atts /\ exists n, In n pattern_names /\ nm = lit n.
Proof.
  intros H. assert (X : exists n a s k, Rng (XElt ns nm atts sc kids) n a s k /\ In n pattern_names /\ LibOk U a).
  { inversion H; subst; try match goal with C : Compound _ _ _ |- _ => destruct C | C : Simple _ _ |- _ => destruct C | C : Reference _ _ |- _ => destruct C end;
      match goal with R : Rng (XElt _ _ _ _ _) ?n ?a ?s ?k |- _ => exists n, a, s, k; split; [exact R|]; split; [apply In_dec_names; reflexivity | assumption] end. }
  destruct X as (n & a & s & k & R & Hn & HLib). apply Rng_parts in R as (-> & -> & -> & _ & _). eauto.
Qed.

Section Kinds.
Variable up : ups.
Variable atts : list xatt.
Variable sc : list (option str * str).
Variable kids : list xnod.
Hypothesis HL : LibOk U atts.
Hypothesis IHp : forall k, In k kids -> forall p, pattern U (atts :: up) k = Some p <-> RP U (atts :: up) k p.
Notation node nm := (XElt (Some rng_uri) (lit nm) atts sc kids).

Lemma compound_ok nm op f p : Compound nm op f -> Ok up (node nm) -> (opt1 f (joined op (each (pattern U (atts :: up)) kids)) = Some p <-> RP U up (node nm) p).
Proof.
  intros HC HO. pose proof (Ok_local _ _ _ _ _ HO) as L.
  assert (Hb : texts_blank kids) by (apply (Ok_blank _ _ _ _ _ HO); destruct HC; reflexivity).
  pose proof (joined_each _ _ op kids Hb IHp) as HJ. assert (HOn : Only atts []) by (destruct HC; apply (l_only _ _ _ _ _ _ L), not_In_names; reflexivity). split.
  - destruct (joined op _) as [y|]; [|discriminate]. intros [= <-]. destruct (proj1 (HJ y) eq_refl) as (ks & l & H1 & H2 & H3).
    apply (RP_compound U up (node nm) nm op f atts sc kids ks l y); auto. reflexivity.
  - intros H. assert (X : exists ks l y, Elements kids ks /\ Forall2 (RP U (atts :: up)) ks l /\ Chain op l y /\ p = f y).
    { destruct HC; inversion H; subst; kind; eauto 8. }
    destruct X as (ks & l & y & H1 & H2 & H3 & ->). assert (E : joined op (each (pattern U (atts :: up)) kids) = Some y) by (apply HJ; eauto). rewrite E. reflexivity.
Qed.
Lemma simple_ok nm p q : Simple nm p -> Ok up (node nm) -> ((if no_attrs_except atts [] && no_rng_children kids then Some p else None) = Some q <-> RP U up (node nm) q).
Proof.
  intros HC HO. pose proof (Ok_local _ _ _ _ _ HO) as L.
  assert (Hb : texts_blank kids) by (apply (Ok_blank _ _ _ _ _ HO); destruct HC; reflexivity).
  assert (HA : no_attrs_except atts [] = true <-> Only atts []).
  { rewrite no_attrs_ok by apply (l_foreign _ _ _ _ _ _ L). split.
    - intros H a Ha. split; [apply (l_foreign _ _ _ _ _ _ L a Ha)|]. intros Hn. destruct (H a Ha Hn) as (n & [] & _).
    - intros H a Ha Hn. destruct (H a Ha) as [_ H2]. destruct (H2 Hn) as (n & Hi & En). exfalso. destruct a as [ns' nm' v]. cbn in Hn, En. subst.
      cbn in Hi. destruct Hi as [<-|[<-|[]]]; [apply (l_no_ns _ _ _ _ _ _ L) with (v := v) | apply (l_no_lib _ _ _ _ _ _ L) with (v := v)]; try exact Ha; apply In_dec_names; destruct HC; reflexivity. }
  pose proof (Elements_nil _ Hb) as HE. split.
  - destruct (no_attrs_except atts [] && no_rng_children kids) eqn:E; [|discriminate]. intros [= <-]. apply andb_prop in E as [E1 E2].
    apply (RP_simple U up (node nm) nm p atts sc kids); auto; [reflexivity | apply HA; exact E1 | apply HE; exact E2].
  - intros H. assert (X : Only atts [] /\ Elements kids [] /\ q = p) by (destruct HC; inversion H; subst; kind; auto).
    destruct X as (H1 & H2 & ->). apply HA in H1. apply HE in H2. rewrite H1, H2. reflexivity.
Qed.
Lemma ref_ok nm f p : Reference nm f -> Ok up (node nm) -> ((if no_rng_children kids then opt1 f (the_name atts) else None) = Some p <-> RP U up (node nm) p).
Proof.
  intros HC HO. pose proof (Ok_local _ _ _ _ _ HO) as L.
  assert (Hb : texts_blank kids) by (apply (Ok_blank _ _ _ _ _ HO); destruct HC; reflexivity). pose proof (Elements_nil _ Hb) as HE.
  pose proof (fun i => the_name_ok _ _ _ _ _ i L) as HN. assert (HOn : Only atts ["name"%string]) by (destruct HC; apply (l_only _ _ _ _ _ _ L), not_In_names; reflexivity). split.
  - destruct (no_rng_children kids); [|discriminate]. destruct (the_name atts) as [i|]; [|discriminate]. intros [= <-]. destruct (proj1 (HN i) eq_refl) as (v & H1 & H2).
    apply (RP_ref U up (node nm) nm f atts sc kids v i); auto; [reflexivity | apply HE; reflexivity].
  - intros H. assert (X : exists v i, Has atts "name" v /\ Named v i /\ Elements kids [] /\ p = f i) by (destruct HC; inversion H; subst; kind; eauto 8).
    destruct X as (v & i & H1 & H2 & H3 & ->). apply HE in H3. rewrite H3. assert (E : the_name atts = Some i) by (apply HN; eauto). rewrite E. reflexivity.
Qed.
Lemma value_ok p : Ok up (node "value") -> (value_el (atts :: up) atts kids = Some p <-> RP U up (node "value") p).
Proof.
  intros HO. pose proof (Ok_local _ _ _ _ _ HO) as L. destruct (Ok_up _ _ _ _ _ HO) as [HD _]. pose proof (l_distinct _ _ _ _ _ _ L) as Hd.
  assert (HOn : Only atts ["type"%string]) by (apply (l_only _ _ _ _ _ _ L), not_In_names; reflexivity).
  assert (HK : existsb is_elt kids = true \/ exists s, (forall t, StringIn kids t <-> t = s) /\ existsb is_elt kids = false /\ match kids with [] => Some [] | k :: _ => node_text k end = Some s).
  { destruct (string_kids _ _ _ _ _ L ltac:(apply In_dec_names; reflexivity)) as [->|[(s & ->)|E]]; [right; exists []; split; [apply StringIn_nil | auto] | right; exists s; split; [apply StringIn_one | auto] | left; exact E]. }
  unfold value_el. destruct HK as [E|(s & HS & E & Ev)].
  - rewrite E. split; [discriminate|]. intros H. inversion H; subst; kind; match goal with S : StringIn _ _ |- _ => apply StringIn_elt in S; congruence end.
  - rewrite E, Ev. destruct (att "type" atts) as [v|] eqn:Ea.
    + apply att_Has in Ea; [|exact Hd]. pose proof (clear_att _ _ _ _ _ _ _ L Ea) as Hv. split.
      * destruct (ncname v) as [l|] eqn:El; [|discriminate]. intros [= <-]. apply (RP_value U up (node "value") atts sc kids s v l); auto; [reflexivity | apply ncname_ok; assumption | apply InForce_ok; exact HD | apply HS; reflexivity].
      * intros H. inversion H; subst; kind.
        { exfalso. match goal with O : Only atts [] |- _ => destruct (O _ Ea) as [_ O2]; destruct (O2 eq_refl) as (n & [<-|[<-|[]]] & En); cbn in En; discriminate En end. }
        match goal with T : Has atts "type" ?w, M : Named ?w ?t, I : InForce _ _ _, S : StringIn _ _ |- _ =>
          rewrite (Has_unique _ _ _ _ Hd T Ea) in M; apply ncname_ok in M; [|exact Hv]; rewrite M; apply inherited_ok in I; [|exact HD]; rewrite I; apply HS in S; subst; reflexivity end.
    + apply att_Lacks in Ea; [|exact Hd]. split.
      * intros [= <-]. apply (RP_value_token U up (node "value") atts sc kids s); auto; [reflexivity | | apply HS; reflexivity].
        apply (Only_sub _ _ _ HOn). intros n v [<-|[]] Hn. destruct (Ea v Hn).
      * intros H. inversion H; subst; kind.
        { match goal with S : StringIn _ _ |- _ => apply HS in S; subst; reflexivity end. }
        match goal with T : Has atts "type" _ |- _ => destruct (Ea _ T) end.
Qed.

Lemma data_type_ok v l : clear v -> (Padded v (lit "token") -> InForce "datatypeLibrary" (atts :: up) []) -> Forall distinct (atts :: up) ->
  (data_type (atts :: up) v = Some l <-> exists ty lib, Named v ty /\ InForce "datatypeLibrary" (atts :: up) lib /\ DataType lib ty l).
Proof.
  intros Hv Ht HD. unfold data_type. assert (Hs : solid (lit "token")) by (apply NCName_solid; apply DatatypeProof2.ncname_spec; reflexivity).
  pose proof (InForce_ok "datatypeLibrary" _ HD) as HI. set (lib := or_empty (inherited "datatypeLibrary" (atts :: up))) in *.
  assert (HI' : forall x, InForce "datatypeLibrary" (atts :: up) x -> x = lib) by (intros x Hx; apply inherited_ok in Hx; [symmetry; exact Hx | exact HD]).
  destruct (str_eqb (trim v) (lit "token")) eqn:E.
  - apply str_eqb_eq in E. apply trim_padded in E; [|exact Hv|exact Hs]. specialize (Ht E). apply HI' in Ht. split.
    + intros [= <-]. exists (lit "token"), []. split; [split; [exact E | apply DatatypeProof2.ncname_spec; reflexivity]|]. split; [rewrite Ht; exact HI | constructor].
    + intros (ty & lb & [H1 H1'] & H2 & H3). assert (Et : ty = lit "token") by (apply (Padded_unique v); [apply NCName_solid; exact H1' | exact Hs | exact Hv | exact H1 | exact E]).
      apply HI' in H2. subst. inversion H3 as [|? ? Hn]; [reflexivity|]. exfalso. apply Hn. split; [congruence | reflexivity].
  - rewrite ncname_of_trim. split.
    + destruct (ncname v) as [n|] eqn:En; [|discriminate]. intros [= <-]. apply ncname_ok in En; [|exact Hv]. exists n, lib. split; [exact En|]. split; [exact HI|].
      constructor. intros [_ ->]. destruct En as [En _]. apply trim_padded in En; [|exact Hv|exact Hs]. rewrite En, str_eqb_refl in E. discriminate E.
    + intros (ty & lb & H1 & H2 & H3). pose proof (proj2 (ncname_ok _ _ Hv) H1) as En. rewrite En. apply HI' in H2. subst lb. inversion H3 as [H4 H5|? ? Hn]; subst; [|reflexivity].
      exfalso. destruct H1 as [H1 _]. apply trim_padded in H1; [|exact Hv|exact Hs]. apply str_eqb_neq in E. congruence.
Qed.
Lemma data_children_filter f ks : data_children f ks = 
  (fix go l := match l with
     | [] => Some ([], None)
     | k :: l' => if named k "param" then match param_el k, go l' with Some p, Some (ps, e) => Some (p :: ps, e) | _, _ => None end
                  else match except_child f SChoicePair l with Some e => Some ([], e) | None => None end
     end) (filter is_rng_el ks).
Proof.
  induction ks as [|k ks IH]; [reflexivity|]. cbn [data_children filter]. destruct (is_rng_el k) eqn:E; [|exact IH].
  rewrite IH. destruct (named k "param"); [reflexivity|]. rewrite !except_child_filter. cbn [filter]. rewrite E.
  replace (filter is_rng_el (filter is_rng_el ks)) with (filter is_rng_el ks); [reflexivity|].
  clear. induction ks as [|x l IH]; [reflexivity|]. cbn. destruct (is_rng_el x) eqn:E; [cbn; rewrite E; congruence | exact IH].
Qed.
Hypothesis IHe : forall k a s gk g, In k kids -> k = XElt (Some rng_uri) (lit "except") a s gk -> In g gk -> forall x, pattern U (a :: atts :: up) g = Some x <-> RP U (a :: atts :: up) g x.
(** an optional exception after parameters *)
Definition Exception (l : list xnod) (e : option spat) : Prop :=
  l = [] /\ e = None \/ exists n ea es ek eks eps p, l = [n] /\ e = Some p /\ Rng n "except" ea es ek /\ Only ea [] /\ LibOk U ea /\ Elements ek eks /\ Forall2 (RP U (ea :: atts :: up)) eks eps /\ Chain SChoicePair eps p.
Lemma data_children_ok ps e : Ok up (node "data") -> (data_children (fun a => pattern U (a :: atts :: up)) kids = Some (ps, e) <->
  exists ks l, Elements kids (ks ++ l) /\ Forall2 (Param U) ks ps /\ Exception l e).
Proof.
  intros HO. pose proof (Ok_blank _ _ _ _ _ HO eq_refl) as Hb. rewrite data_children_filter. pose proof (fun l => Elements_iff kids l Hb) as HE.
  assert (G : forall m, (forall x, In x m -> In x kids /\ is_rng_el x = true) -> forall ps e,
    (fix go l := match l with
     | [] => Some ([], None)
     | k :: l' => if named k "param" then match param_el k, go l' with Some p, Some (ps, e) => Some (p :: ps, e) | _, _ => None end
                  else match except_child (fun a => pattern U (a :: atts :: up)) SChoicePair l with Some e => Some ([], e) | None => None end
     end) m = Some (ps, e) <-> exists ks l, m = ks ++ l /\ Forall2 (Param U) ks ps /\ Exception l e).
  { induction m as [|k m IH]; intros Hm ps' e'.
    - split; [intros [= <- <-]; exists [], []; split; [reflexivity|]; split; [constructor | left; auto]|].
      intros (ks & l & E & HF & HX). symmetry in E. apply app_eq_nil in E as [-> ->]. inversion HF; subst. destruct HX as [[_ ->]|(n & ? & ? & ? & ? & ? & ? & E & _)]; [reflexivity | discriminate E].
    - specialize (IH (fun x Hx => Hm x (or_intror Hx))). destruct (Hm k (or_introl eq_refl)) as [Hk Hr]. destruct k as [ns nm a s gk| | |]; try discriminate Hr. cbn in Hr. apply is_rng_true in Hr. subst ns.
      destruct (named (XElt (Some rng_uri) nm a s gk) "param") eqn:En.
      + cbn in En. apply str_eqb_eq in En. subst nm. pose proof (fun p => param_ok _ _ _ _ p (Ok_kid _ _ _ _ _ _ HO Hk)) as HP. split.
        * destruct (param_el _) as [p|]; [|discriminate]. match goal with |- context [?f m] => destruct (f m) as [[ps2 e2]|] eqn:Eg end; [|discriminate]. intros [= <- <-].
          destruct (proj1 (IH ps2 e2) eq_refl) as (ks & l & -> & H1 & H2). exists (XElt (Some rng_uri) (lit "param") a s gk :: ks), l. split; [reflexivity|]. split; [constructor; [apply HP; reflexivity | exact H1] | exact H2].
        * intros (ks & l & E & HF & HX). destruct ks as [|k ks].
          { cbn in E. subst l. exfalso. destruct HX as [[E _]|(n & ea & es & ek & eks & eps & q & E & _ & R & _)]; [discriminate E|]. injection E as <- _. rng R. }
          injection E as <- ->. inversion HF as [|? p ? ps2 H1 H2]; subst. apply HP in H1. change [112%N; 97%N; 114%N; 97%N; 109%N] with (lit "param"). rewrite H1. rewrite (proj2 (IH ps2 e')); [reflexivity | eauto].
      + assert (HX : forall e2, except_child (fun a => pattern U (a :: atts :: up)) SChoicePair (XElt (Some rng_uri) nm a s gk :: m) = Some e2 <-> Exception (XElt (Some rng_uri) nm a s gk :: m) e2).
        { intros e2. rewrite except_child_filter. replace (filter is_rng_el (XElt (Some rng_uri) nm a s gk :: m)) with (XElt (Some rng_uri) nm a s gk :: m).
          2:{ symmetry. cbn [filter is_rng_el]. replace (is_rng (Some rng_uri)) with true by reflexivity. f_equal. clear - Hm. induction m as [|x m IH]; [reflexivity|]. cbn. destruct (Hm x (or_intror (or_introl eq_refl))) as [_ ->]. f_equal. apply IH. intros y [Hy|Hy]; apply Hm; [left; exact Hy | right; right; exact Hy]. }
          destruct m as [|k2 m].
          2:{ split; [discriminate|]. intros [[E _]|(n & ? & ? & ? & ? & ? & ? & E & _)]; discriminate E. }
          destruct (str_eqb nm (lit "except")) eqn:Ex.
          - apply str_eqb_eq in Ex. subst nm. pose proof (Ok_kid _ _ _ _ _ _ HO Hk) as HO'. pose proof (Ok_local _ _ _ _ _ HO') as L'.
            pose proof (joined_each (pattern U (a :: atts :: up)) (RP U (a :: atts :: up)) SChoicePair gk (Ok_blank _ _ _ _ _ HO' eq_refl) (fun g Hg => IHe _ a s gk g Hk eq_refl Hg)) as HJ. split.
            + destruct (joined SChoicePair _) as [x|]; [|discriminate]. intros [= <-]. right. destruct (proj1 (HJ x) eq_refl) as (ks & l & H1 & H2 & H3).
              exists (XElt (Some rng_uri) (lit "except") a s gk), a, s, gk, ks, l, x. split; [reflexivity|]. split; [reflexivity|]. split; [reflexivity|].
              split; [apply (l_only _ _ _ _ _ _ L'); apply not_In_names; reflexivity|]. split; [apply (l_lib _ _ _ _ _ _ L'); left; apply not_In_names; reflexivity|]. auto.
            + intros [[E _]|(n & ea & es & ek & eks & eps & q & E & -> & R & _ & _ & H1 & H2 & H3)]; [discriminate E|]. injection E as <-. rng R.
              assert (E : joined SChoicePair (each (pattern U (a :: atts :: up)) gk) = Some q) by (apply HJ; eauto). rewrite E. reflexivity.
          - split; [discriminate|]. intros [[E _]|(n & ea & es & ek & eks & eps & q & E & -> & R & _)]; [discriminate E|]. injection E as <-. apply Rng_parts in R as (_ & -> & _). rewrite str_eqb_refl in Ex. discriminate Ex. }
        split.
        * destruct (except_child _ _ _) as [e2|]; [|discriminate]. intros [= <- <-]. exists [], (XElt (Some rng_uri) nm a s gk :: m). split; [reflexivity|]. split; [constructor | apply HX; reflexivity].
        * intros (ks & l & E & HF & HX'). destruct ks as [|k ks].
          { cbn in E. subst l. inversion HF; subst. apply HX in HX'. rewrite HX'. reflexivity. }
          exfalso. injection E as <- _. inversion HF as [|? p ? ? H1 _]; subst. inversion H1 as [? ? ? ? ? ? ? R]; subst. apply Rng_parts in R as (_ & -> & _). vm_compute in En. discriminate En. }
  rewrite G.
  - split; intros (ks & l & H1 & H2); exists ks, l; (split; [apply HE; exact H1 | exact H2]).
  - intros x Hx. apply filter_In in Hx. exact Hx.
Qed.
Lemma data_ok p : Ok up (node "data") ->
  (match att "type" atts with
   | None => None
   | Some v => if no_attrs_except atts ["type"; "datatypeLibrary"]%string then
                 match data_type (atts :: up) v, data_children (fun a => pattern U (a :: atts :: up)) kids with
                 | Some t, Some (ps, e) => Some (SData t (Some ps) e)
                 | _, _ => None
                 end
               else None
   end = Some p <-> RP U up (node "data") p).
Proof.
  intros HO. pose proof (Ok_local _ _ _ _ _ HO) as L. destruct (Ok_up _ _ _ _ _ HO) as [HD _]. pose proof (l_distinct _ _ _ _ _ _ L) as Hd.
  assert (HA : no_attrs_except atts ["type"; "datatypeLibrary"]%string = true <-> Only atts ["type"%string]).
  { rewrite no_attrs_ok by apply (l_foreign _ _ _ _ _ _ L). split.
    - intros H a Ha. split; [apply (l_foreign _ _ _ _ _ _ L a Ha)|]. intros Hn. destruct (H a Ha Hn) as (n & [<-|[<-|[]]] & En); eexists; (split; [|exact En]); apply In_dec_names; reflexivity.
    - intros H a Ha Hn. destruct (H a Ha) as [_ H2]. destruct (H2 Hn) as (n & Hi & En). cbn in Hi. destruct Hi as [<-|[<-|[<-|[]]]].
      + exists "type"%string. split; [left; reflexivity | exact En].
      + exfalso. destruct a as [ns' nm' v]. cbn in Hn, En. subst. apply (l_no_ns _ _ _ _ _ _ L ltac:(apply In_dec_names; reflexivity) v Ha).
      + exists "datatypeLibrary"%string. split; [right; left; reflexivity | exact En]. }
  pose proof (fun ps e => data_children_ok ps e HO) as HC. split.
  - destruct (att "type" atts) as [v|] eqn:Ea; [|discriminate]. apply att_Has in Ea; [|exact Hd]. destruct (no_attrs_except _ _); [|discriminate].
    pose proof (fun l => data_type_ok v l (clear_att _ _ _ _ _ _ _ L Ea) (l_token _ _ _ _ _ _ L eq_refl v Ea) HD) as HT.
    destruct (data_type (atts :: up) v) as [t|]; [|discriminate]. destruct (data_children _ _) as [[ps e]|]; [|discriminate]. intros [= <-].
    destruct (proj1 (HT t) eq_refl) as (ty & lib & H1 & H2 & H3). destruct (proj1 (HC ps e) eq_refl) as (ks & l & H4 & H5 & [[-> ->]|(n & ea & es & ek & eks & eps & q & -> & -> & K1 & K2 & K3 & K4 & K5 & K6)]).
    + rewrite app_nil_r in H4. apply (RP_data U up (node "data") atts sc kids v ty lib t ks ps); auto; [reflexivity | apply HA; reflexivity].
    + apply (RP_data_except U up (node "data") atts sc kids v ty lib t ks ps n ea es ek eks eps q); auto; [reflexivity | apply HA; reflexivity].
  - intros H. assert (X : exists v ty lib t ks ps l e, Only atts ["type"%string] /\ Has atts "type" v /\ Named v ty /\ InForce "datatypeLibrary" (atts :: up) lib /\ DataType lib ty t /\ Elements kids (ks ++ l) /\ Forall2 (Param U) ks ps /\ Exception l e /\ p = SData t (Some ps) e).
    { inversion H; subst; kind.
      - eexists _, _, _, _, _, _, [], None. rewrite app_nil_r. repeat (split; [eassumption|]). split; [left; auto | reflexivity].
      - eexists _, _, _, _, _, _, [_], (Some _). repeat (split; [eassumption|]). split; [right|reflexivity]. eexists _, _, _, _, _, _, _. split; [reflexivity|]. split; [reflexivity|]. repeat (split; [eassumption|]). eassumption. }
    destruct X as (v & ty & lib & t & ks & ps & l & e & H1 & H2 & H3 & H4 & H5 & H6 & H7 & H8 & ->).
    pose proof (proj2 (att_Has _ _ _ Hd) H2) as Ea. rewrite Ea. apply HA in H1. rewrite H1.
    rewrite (proj2 (data_type_ok v t (clear_att _ _ _ _ _ _ _ L H2) (l_token _ _ _ _ _ _ L eq_refl v H2) HD)) by eauto.
    rewrite (proj2 (HC ps e)) by eauto. reflexivity.
Qed.

Hypothesis IHn : forall k, In k kids -> Ok (atts :: up) k -> forall c, name_class (atts :: up) false k = Some c <-> RN U (atts :: up) Outside k c.
Lemma first_rest_ok nm (HO : Ok up (node nm)) (Hs : existsb (String.eqb nm) string_names = false) c ps :
  first_rest (name_class (atts :: up) false) (pattern U (atts :: up)) kids = Some (c, ps) <->
  exists k ks, Elements kids (k :: ks) /\ RN U (atts :: up) Outside k c /\ Forall2 (RP U (atts :: up)) ks ps.
Proof.
  pose proof (Ok_blank _ _ _ _ _ HO Hs) as Hb. rewrite first_rest_filter. pose proof (Elements_ex _ Hb) as HE. pose proof (fun l => Elements_filter kids l) as HF.
  destruct (filter is_rng_el kids) as [|k ks] eqn:E.
  - split; [discriminate|]. intros (k & ks & H & _). apply HF in H. discriminate H.
  - assert (Hin : forall x, In x (k :: ks) -> In x kids) by (intros x; apply (Elements_in _ _ _ HE)).
    pose proof (IHn k (Hin k (or_introl eq_refl)) (Ok_kid _ _ _ _ _ _ HO (Hin k (or_introl eq_refl)))) as HN.
    pose proof (map_opt_Forall2 (pattern U (atts :: up)) (RP U (atts :: up)) ks (fun x Hx => IHp x (Hin x (or_intror Hx)))) as HM. split.
    + destruct (name_class _ _ _) as [c'|]; [|discriminate]. destruct (map_opt _ ks) as [l|]; [|discriminate]. intros [= -> ->]. exists k, ks. split; [exact HE|]. split; [apply HN; reflexivity | apply HM; reflexivity].
    + intros (k' & ks' & H1 & H2 & H3). apply HF in H1. injection H1 as -> ->. apply HN in H2. apply HM in H3. rewrite H2, H3. reflexivity.
Qed.
Lemma only_name nm : nm = "element"%string \/ nm = "attribute"%string -> Ok up (node nm) -> (no_attrs_except atts ["name"; "ns"; "datatypeLibrary"]%string = true <-> Only atts ["name"%string]).
Proof. intros _ HO. pose proof (Ok_local _ _ _ _ _ HO) as L. apply (no_attrs_Only atts ["name"%string]). apply (l_foreign _ _ _ _ _ _ L). Qed.
Lemma no_name : (forall v, ~ Has atts "name" v) -> Only atts ["name"%string] <-> Only atts [].
Proof.
  intros H. split; intros HO; apply (Only_sub _ _ _ HO).
  - intros n v [<-|[]] Hn. destruct (H v Hn).
  - intros n v [].
Qed.
Lemma Only_nil_name : Only atts [] -> Lacks atts "name".
Proof. intros H v Hv. destruct (H _ Hv) as [_ H2]. destruct (H2 eq_refl) as (n & [<-|[<-|[]]] & E); cbn in E; discriminate E. Qed.
Lemma element_ok p : Ok up (node "element") ->
  ((if no_attrs_except atts ["name"; "ns"; "datatypeLibrary"]%string then
      match att "name" atts with
      | Some v => match qname_att sc (atts :: up) v, joined SListPair (each (pattern U (atts :: up)) kids) with
                  | Some q, Some p => Some (SElement (CName q) p)
                  | _, _ => None
                  end
      | None => match first_rest (name_class (atts :: up) false) (pattern U (atts :: up)) kids with
                | Some (c, l) => match joined SListPair (Some l) with Some p => Some (SElement c p) | None => None end
                | None => None
                end
      end
    else None) = Some p <-> RP U up (node "element") p).
Proof.
  intros HO. pose proof (Ok_local _ _ _ _ _ HO) as L. destruct (Ok_up _ _ _ _ _ HO) as [HD _]. pose proof (l_distinct _ _ _ _ _ _ L) as Hd.
  pose proof (Ok_blank _ _ _ _ _ HO eq_refl) as Hb. pose proof (only_name _ (or_introl eq_refl) HO) as HA. destruct (l_prefixes _ _ _ _ _ _ L) as [HP1 HP0]. assert (HP2 : forall p u, In (Some p, u) sc -> NCName p) by (intros p' u Hp'; apply (HP0 p' u Hp')).
  assert (HQ : forall v, Has atts "name" v -> forall q, qname_att sc (atts :: up) v = Some q <-> QName sc (or_empty (inherited "ns" (atts :: up))) v q).
  { intros v Hv q. apply qname_att_ok; auto; [exact (clear_att _ _ _ _ _ _ _ L Hv) | apply (l_colon _ _ _ _ _ _ L); [apply In_dec_names; reflexivity | exact Hv]]. }
  destruct (no_attrs_except _ _) eqn:En.
  2:{ split; [discriminate|]. intros H. assert (X : Only atts ["name"%string]); [|apply HA in X; discriminate X]. inversion H; subst; kind; [assumption|]. apply no_name; [|assumption]. apply Only_nil_name. assumption. }
  pose proof (proj1 HA eq_refl) as HOn. destruct (att "name" atts) as [v|] eqn:Ea.
  - apply att_Has in Ea; [|exact Hd]. pose proof (joined_each _ _ SListPair kids Hb IHp) as HJ. split.
    + destruct (qname_att sc (atts :: up) v) as [q|] eqn:Eq; [|discriminate]. destruct (joined SListPair _) as [y|]; [|discriminate]. intros [= <-]. apply HQ in Eq; [|exact Ea].
      destruct (proj1 (HJ y) eq_refl) as (ks & l & H1 & H2 & H3). apply (RP_element U up (node "element") atts sc kids v (or_empty (inherited "ns" (atts :: up))) q ks l y); auto; [reflexivity | apply InForce_ok; exact HD].
    + intros H. inversion H; subst; kind; [|exfalso; match goal with O : Only atts [] |- _ => exact (Only_nil_name O v Ea) end].
      match goal with T : Has atts "name" ?w, Q : QName sc ?ns ?w _, I : InForce _ _ _, E1 : Elements kids ?ks, E2 : Forall2 _ ?ks ?l, E3 : Chain _ ?l ?y |- _ =>
        assert (EJ : joined SListPair (each (pattern U (atts :: up)) kids) = Some y) by (apply HJ; exists ks, l; auto);
        apply inherited_ok in I; [|exact HD]; subst ns; pose proof (Has_unique _ _ _ _ Hd T Ea); subst w; apply (HQ _ Ea) in Q; rewrite Q, EJ; reflexivity end.
  - apply att_Lacks in Ea; [|exact Hd]. pose proof (first_rest_ok _ HO eq_refl) as HF. split.
    + destruct (first_rest _ _ kids) as [[c l]|]; [|discriminate]. destruct (joined SListPair (Some l)) as [y|] eqn:Ej; [|discriminate]. intros [= <-]. apply joined_ok in Ej.
      destruct (proj1 (HF c l) eq_refl) as (k & ks & H1 & H2 & H3). apply (RP_element_class U up (node "element") atts sc kids k ks c l y); auto; [reflexivity | apply no_name; [exact Ea | exact HOn]].
    + intros H. inversion H; subst; kind; [exfalso; match goal with T : Has atts "name" _ |- _ => exact (Ea _ T) end|].
      match goal with E1 : Elements kids (?k :: ?ks), E2 : RN _ _ _ ?k ?c, E3 : Forall2 _ ?ks ?l, E4 : Chain _ ?l ?y |- _ => rewrite (proj2 (HF c l)) by eauto; apply joined_ok in E4; rewrite E4; reflexivity end.
Qed.
Lemma attribute_ok p : Ok up (node "attribute") ->
  ((if no_attrs_except atts ["name"; "ns"; "datatypeLibrary"]%string then
      match att "name" atts with
      | Some v =>
          if attribute_name_ok (atts :: up) v then
            match qname_att sc (atts :: up) v, each (pattern U (atts :: up)) kids with
            | Some q, Some [] => Some (SAttribute (CName q) SText)
            | Some q, Some [p] => Some (SAttribute (CName q) p)
            | _, _ => None
            end
          else None
      | None => match first_rest (name_class (atts :: up) false) (pattern U (atts :: up)) kids with
                | Some (c, []) => Some (SAttribute c SText)
                | Some (c, [p]) => Some (SAttribute c p)
                | _ => None
                end
      end
    else None) = Some p <-> RP U up (node "attribute") p).
Proof.
  intros HO. pose proof (Ok_local _ _ _ _ _ HO) as L. destruct (Ok_up _ _ _ _ _ HO) as [HD _]. pose proof (l_distinct _ _ _ _ _ _ L) as Hd.
  pose proof (Ok_blank _ _ _ _ _ HO eq_refl) as Hb. pose proof (only_name _ (or_intror eq_refl) HO) as HA. destruct (l_prefixes _ _ _ _ _ _ L) as [HP1 HP0]. assert (HP2 : forall p u, In (Some p, u) sc -> NCName p) by (intros p' u Hp'; apply (HP0 p' u Hp')).
  destruct (l_att_xmlns _ _ _ _ _ _ L eq_refl) as [HX1 HX2].
  (* the namespace the code takes is the one meant *)
  assert (HN : forall v ns q, Has atts "name" v -> (Has atts "ns" ns \/ Lacks atts "ns" /\ ns = []) -> (QName sc (or_empty (inherited "ns" (atts :: up))) v q <-> QName sc ns v q)).
  { intros v ns q Hv Hns. destruct (has_colon v) eqn:Ec.
    - apply has_colon_In in Ec. split; intros H; inversion H as [? l HNm|? ? ? ? ? ? ? ?]; subst; try (destruct (Named_colon _ _ HNm Ec)); eapply Q_prefix; eassumption.
    - assert (Ec' : ~ In 58%N v) by (intros Hi; apply has_colon_In in Hi; congruence). assert (Ens : or_empty (inherited "ns" (atts :: up)) = ns); [|rewrite Ens; reflexivity].
      apply inherited_ok; [exact HD|]. destruct Hns as [Hns|[Hns ->]]; [apply If_here; exact Hns|]. apply If_above; [exact Hns|].
      destruct (l_att_ns _ _ _ _ _ _ L eq_refl v Hv Ec') as [(ns & Hx)|Hx]; [destruct (Hns ns Hx) | exact Hx]. }
  assert (HQ : forall v, Has atts "name" v -> forall q, qname_att sc (atts :: up) v = Some q <-> QName sc (or_empty (inherited "ns" (atts :: up))) v q).
  { intros v Hv q. apply qname_att_ok; auto; [exact (clear_att _ _ _ _ _ _ _ L Hv) | apply (l_colon _ _ _ _ _ _ L); [apply In_dec_names; reflexivity | exact Hv]]. }
  assert (Hown : exists ns, Has atts "ns" ns \/ Lacks atts "ns" /\ ns = []).
  { destruct (att "ns" atts) as [ns|] eqn:E; [apply att_Has in E; eauto | apply att_Lacks in E; eauto]. }
  (* the check on forbidden names *)
  assert (HF : forall v q, Has atts "name" v -> QName sc (or_empty (inherited "ns" (atts :: up))) v q -> (attribute_name_ok (atts :: up) v = true <-> no_xmlns (CName q))).
  { intros v q Hv HQn. destruct (HX2 v Hv) as [HX3 HX4]. unfold attribute_name_ok. pose proof (InForce_ok "ns" _ HD) as HI. set (ns := or_empty (inherited "ns" (atts :: up))) in *.
    assert (Eh : (match inherited "ns" (atts :: up) with Some u => str_eqb u (lit "http://www.w3.org/2000/xmlns") | None => false end) = str_eqb ns xmlns_uri).
    { unfold ns. destruct (inherited "ns" (atts :: up)); reflexivity. }
    rewrite Eh. rewrite andb_true_iff, !negb_true_iff, andb_false_iff, !str_eqb_neq. inversion HQn as [? l HNm|? pr l u (a & b & Ev & Ha & Hb') Hp Hl Hu]; subst.
    - cbn [no_xmlns]. assert (Ex : v = lit "xmlns" <-> l = lit "xmlns").
      { split.
        - intros ->. assert (Cx : clear (lit "xmlns")) by (apply (clear_att _ _ _ _ _ _ _ L Hv)). destruct HNm as [HNm1 HNm2].
          apply (Padded_unique (lit "xmlns")); [apply NCName_solid; exact HNm2 | apply NCName_solid; apply DatatypeProof2.ncname_spec; reflexivity | exact Cx | exact HNm1 | exists [], []; rewrite app_nil_r; repeat split; constructor].
        - intros ->. apply HX4. apply HNm. }
      rewrite Ex. split.
      + intros [H1 H2]. split; [intros [= E]; exact (H2 E)|]. intros [E1 E2]. injection E1 as E1. destruct H1; auto.
      + intros [H1 H2]. split; [|intros E; apply H1; rewrite E; reflexivity]. destruct (list_eq_dec N.eq_dec l (lit "xmlns")) as [E|E]; [right | left; exact E]. intros E'. apply H2. split; [rewrite E'; reflexivity | exact E].
    - assert (Hc : In 58%N (a ++ (pr ++ lit ":" ++ l) ++ b)) by (rewrite !in_app_iff; right; left; right; left; left; reflexivity). specialize (HX3 Hc).
      assert (Hxu : u <> xmlns_uri).
      { destruct Hu as [[_ ->]|[_ Hu]]; [discriminate | exact (HX1 _ _ Hu)]. }
      assert (Hue : u <> []) by (destruct Hu as [[_ ->]|[_ Hu]]; [discriminate | apply (HP0 _ _ Hu)]). cbn [no_xmlns]. split.
      + intros _. split; [intros [= E]; exact (Hxu E)|]. intros [E1 _]. injection E1 as E1. exact (Hue E1).
      + intros _. split; [left; intros E; rewrite E in Hc; cbn in Hc; repeat (destruct Hc as [Hc|Hc]; [discriminate Hc|]); exact Hc|]. intros E. apply HX3. rewrite <- E. exact HI. }
  destruct (no_attrs_except _ _) eqn:En.
  2:{ split; [discriminate|]. intros H. assert (X : Only atts ["name"%string]); [|apply HA in X; discriminate X]. inversion H; subst; kind; [assumption|]. apply no_name; [|assumption]. apply Only_nil_name. assumption. }
  pose proof (proj1 HA eq_refl) as HOn. destruct (att "name" atts) as [v|] eqn:Ea.
  - apply att_Has in Ea; [|exact Hd]. pose proof (each_ok _ _ kids Hb IHp) as HE. destruct Hown as (ns & Hns). split.
    + destruct (attribute_name_ok (atts :: up) v) eqn:Ek; [|discriminate]. destruct (qname_att sc (atts :: up) v) as [q|] eqn:Eq; [|discriminate]. apply HQ in Eq; [|exact Ea].
      pose proof (proj1 (HF v q Ea Eq) Ek) as Hx. apply (HN v ns q Ea Hns) in Eq.
      destruct (each _ kids) as [l|]; [|discriminate]. destruct (proj1 (HE l) eq_refl) as (ks & H1 & H2). intros H.
      assert (Hl : exists y, (l = [] /\ y = SText \/ l = [y]) /\ p = SAttribute (CName q) y) by (destruct l as [|y [|y' l]]; [| |discriminate H]; injection H as <-; eauto).
      destruct Hl as (y & Hl & ->). apply (RP_attribute U up (node "attribute") atts sc kids v ns q ks l y); auto. reflexivity.
    + intros H. inversion H; subst; kind; [|exfalso; match goal with O : Only atts [] |- _ => exact (Only_nil_name O v Ea) end].
      match goal with T : Has atts "name" ?w, Q : QName sc ?ns ?w ?q, X : no_xmlns _, S : _ \/ _ /\ _ = [], E1 : Elements kids ?ks, E2 : Forall2 _ ?ks ?l |- _ =>
        assert (EJ : each (pattern U (atts :: up)) kids = Some l) by (apply HE; exists ks; auto); pose proof (Has_unique _ _ _ _ Hd T Ea); subst w;
        apply (HN v ns0 q Ea S) in Q; rewrite (proj2 (HF v q Ea Q) X); apply (HQ _ Ea) in Q; rewrite Q, EJ end.
      match goal with E : _ \/ ?l = [_] |- _ => destruct E as [[-> ->]| -> ]; reflexivity end.
  - apply att_Lacks in Ea; [|exact Hd]. pose proof (first_rest_ok _ HO eq_refl) as HR. split.
    + destruct (first_rest _ _ kids) as [[c l]|]; [|discriminate]. destruct (proj1 (HR c l) eq_refl) as (k & ks & H1 & H2 & H3). intros H.
      assert (Hl : exists y, (l = [] /\ y = SText \/ l = [y]) /\ p = SAttribute c y) by (destruct l as [|y [|y' l]]; [| |discriminate H]; injection H as <-; eauto).
      destruct Hl as (y & Hl & ->). apply (RP_attribute_class U up (node "attribute") atts sc kids k ks c l y); auto; [reflexivity | apply no_name; [exact Ea | exact HOn]|].
      apply (RN_no_xmlns (S (xsize k)) k ltac:(lia) (atts :: up) Outside c); [apply (Ok_kid _ _ _ _ _ _ HO); apply (Elements_in _ _ _ H1); left; reflexivity | exact H2].
    + intros H. inversion H; subst; kind; [exfalso; match goal with T : Has atts "name" _ |- _ => exact (Ea _ T) end|].
      match goal with E1 : Elements kids (?k :: ?ks), E2 : RN _ _ _ ?k ?c, E3 : Forall2 _ ?ks ?l |- _ => rewrite (proj2 (HR c l)) by eauto end.
      match goal with E : _ \/ ?l = [_] |- _ => destruct E as [[-> ->]| -> ]; reflexivity end.
Qed.
Lemma external_ok p : Ok up (node "externalRef") ->
  (match att "href" atts with Some h => Some (SExternal [rebase_path (atts :: up) h] None) | None => None end = Some p <-> RP U up (node "externalRef") p).
Proof.
  intros HO. pose proof (Ok_local _ _ _ _ _ HO) as L. destruct (Ok_up _ _ _ _ _ HO) as [HD HB]. pose proof (l_distinct _ _ _ _ _ _ L) as Hd.
  destruct (l_file _ _ _ _ _ _ L ltac:(apply In_dec_names; reflexivity)) as [_ Hh]. split.
  - destruct (att "href" atts) as [h|] eqn:Ea; [|discriminate]. intros [= <-]. apply att_Has in Ea; [|exact Hd].
    apply (RP_external U up (node "externalRef") atts sc kids h); auto; [reflexivity | apply (l_only _ _ _ _ _ _ L), not_In_names; reflexivity | apply rebase_ok; auto | apply (l_external _ _ _ _ _ _ L); reflexivity].
  - intros H. inversion H; subst; kind. match goal with T : Has atts "href" ?h, R : Resolved _ _ _ |- _ => pose proof (proj2 (att_Has _ _ _ Hd) T) as Ea; rewrite Ea; apply rebase_ok in R; [|exact HD|exact HB|apply Hh; exact T]; rewrite R; reflexivity end.
Qed.
Lemma combine_ok nm h : Local U up nm atts sc kids -> (combine_of atts = Some h <-> Method atts h).
Proof.
  intros L. pose proof (l_distinct _ _ _ _ _ _ L) as Hd. unfold combine_of, Method. destruct (att "combine" atts) as [v|] eqn:Ea.
  - apply att_Has in Ea; [|exact Hd]. pose proof (clear_att _ _ _ _ _ _ _ L Ea) as Hv.
    assert (S1 : solid (lit "choice")) by (apply NCName_solid; apply DatatypeProof2.ncname_spec; reflexivity). assert (S2 : solid (lit "interleave")) by (apply NCName_solid; apply DatatypeProof2.ncname_spec; reflexivity).
    pose proof (trim_padded v _ Hv S1) as T1. pose proof (trim_padded v _ Hv S2) as T2.
    destruct (str_eqb (trim v) (lit "choice")) eqn:E1; [|destruct (str_eqb (trim v) (lit "interleave")) eqn:E2]; (split; [intros H | intros [[HLk _]|(w & Hw & H)]; [destruct (HLk v Ea)|]; pose proof (Has_unique _ _ _ _ Hd Hw Ea); subst w]).
    + injection H as <-. right. exists v. split; [exact Ea|]. left. split; [apply T1; apply str_eqb_eq; exact E1 | reflexivity].
    + destruct H as [[_ ->]|[HP _]]; [reflexivity|]. apply T2 in HP. apply str_eqb_eq in E1. rewrite E1 in HP. discriminate HP.
    + injection H as <-. right. exists v. split; [exact Ea|]. right. split; [apply T2; apply str_eqb_eq; exact E2 | reflexivity].
    + destruct H as [[HP _]|[_ ->]]; [|reflexivity]. apply T1 in HP. apply str_eqb_neq in E1. congruence.
    + discriminate H.
    + destruct H as [[HP _]|[HP _]]; [apply T1 in HP; apply str_eqb_neq in E1; congruence | apply T2 in HP; apply str_eqb_neq in E2; congruence].
  - apply att_Lacks in Ea; [|exact Hd]. split; [intros [= <-]; left; auto|]. intros [[_ ->]|(v & Hv & _)]; [reflexivity | destruct (Ea v Hv)].
Qed.
Lemma start_ok n h p : Ok up (node "start") -> (start_of_el atts (each (pattern U (atts :: up)) kids) = Some (n, h, p) <-> RD U up (node "start") n h p).
Proof.
  intros HO. pose proof (Ok_local _ _ _ _ _ HO) as L. pose proof (Ok_blank _ _ _ _ _ HO eq_refl) as Hb. pose proof (each_ok _ _ kids Hb IHp) as HE.
  pose proof (fun h => combine_ok _ h L) as HM. unfold start_of_el.
  assert (HA : no_attrs_except atts ["combine"%string] = true <-> Only atts ["combine"%string]).
  { rewrite no_attrs_ok by apply (l_foreign _ _ _ _ _ _ L). split.
    - intros H a Ha. split; [apply (l_foreign _ _ _ _ _ _ L a Ha)|]. intros Hn. destruct (H a Ha Hn) as (m & [<-|[]] & En); eexists; (split; [|exact En]); apply In_dec_names; reflexivity.
    - intros H a Ha Hn. destruct (H a Ha) as [_ H2]. destruct (H2 Hn) as (m & Hi & En). cbn in Hi. destruct a as [ns' nm' v]. cbn in Hn, En. destruct Hi as [<-|[<-|[<-|[]]]].
      + exists "combine"%string. split; [left; reflexivity | exact En].
      + exfalso. subst. apply (l_no_ns _ _ _ _ _ _ L ltac:(apply In_dec_names; reflexivity) v Ha).
      + exfalso. subst. apply (l_no_lib _ _ _ _ _ _ L ltac:(apply In_dec_names; reflexivity) v Ha). }
  split.
  - destruct (combine_of atts) as [h'|]; [|discriminate]. destruct (each _ kids) as [[|q [|q' l]]|]; try discriminate. destruct (no_attrs_except _ _); [|discriminate]. intros [= <- <- <-].
    destruct (proj1 (HE [q]) eq_refl) as (ks & H1 & H2). inversion H2 as [|k ? ks' ? H3 H4]; subst. inversion H4; subst.
    apply (RD_start U up (node "start") atts sc kids h' k q); auto; [reflexivity | apply HA; reflexivity | apply HM; reflexivity].
  - intros H. inversion H; subst; kind. match goal with M : Method _ _, O : Only _ _, E : Elements kids [?k], R : RP _ _ ?k ?q |- _ => apply HM in M; apply HA in O; rewrite M, O; rewrite (proj2 (HE [q])); [reflexivity|]; exists [k]; split; [exact E | constructor; [exact R | constructor]] end.
Qed.
Lemma define_ok n h p : Ok up (node "define") -> (define_of_el atts (each (pattern U (atts :: up)) kids) = Some (n, h, p) <-> RD U up (node "define") n h p).
Proof.
  intros HO. pose proof (Ok_local _ _ _ _ _ HO) as L. pose proof (Ok_blank _ _ _ _ _ HO eq_refl) as Hb. pose proof (joined_each _ _ SListPair kids Hb IHp) as HJ.
  pose proof (fun h => combine_ok _ h L) as HM. pose proof (fun i => the_name_ok _ _ _ _ _ i L) as HN. unfold define_of_el. split.
  - destruct (combine_of atts) as [h'|]; [|discriminate]. destruct (the_name atts) as [i|]; [|discriminate]. destruct (joined SListPair _) as [y|]; [|discriminate]. intros [= <- <- <-].
    destruct (proj1 (HN i) eq_refl) as (v & H1 & H2). destruct (proj1 (HJ y) eq_refl) as (ks & l & H3 & H4 & H5).
    apply (RD_define U up (node "define") atts sc kids h' v i ks l y); auto; [reflexivity | apply (l_only _ _ _ _ _ _ L), not_In_names; reflexivity | apply HM; reflexivity].
  - intros H. inversion H; subst; kind. match goal with M : Method _ _, T : Has atts "name" ?v, N : Named ?v ?i, E : Elements kids ?ks, R : Forall2 _ ?ks ?l, C : Chain _ ?l ?y |- _ =>
      apply HM in M; rewrite M; rewrite (proj2 (HN i)) by eauto; rewrite (proj2 (HJ y)) by eauto; reflexivity end.
Qed.
End Kinds.

(** ** All together *)
Lemma opt1_some {A B} (f : A -> B) o b : opt1 f o = Some b <-> exists a, o = Some a /\ b = f a.
Proof. destruct o as [a|]; cbn; [split; [intros [= <-]; eauto | intros (a' & [= <-] & ->); reflexivity] | split; [discriminate | intros (a & [=] & _)]]. Qed.
Lemma opt1_id {A} (o : option A) : opt1 (fun p => p) o = o. Proof. destruct o; reflexivity. Qed.
Lemma find_entry_none {A} n (l : list (string * A)) : find_entry n l = None -> forall k, In k (map fst l) -> n <> lit k.
Proof.
  induction l as [|[k a] l IH]; cbn [find_entry map fst]; [intros _ k []|]. destruct (is_name n k) eqn:E; [discriminate|]. intros H k' [<-|Hk']; [|exact (IH H k' Hk')].
  intros ->. assert (is_name (lit k) k = true) by (apply DatatypeProof.is_name_true; reflexivity). congruence.
Qed.
Definition Rd (n : xnod) : Prop := exists nm a s k, n = XElt (Some rng_uri) (lit nm) a s k /\ (nm = "start" \/ nm = "define")%string.
Lemma RD_names up n m h p : RD U up n m h p -> Rd n.
Proof. intros H. inversion H; subst; match goal with R : Rng _ _ _ _ _ |- _ => unfold Rng in R; subst n end; eexists _, _, _, _; eauto. Qed.
Definition All (N : nat) : Prop :=
  (forall n, (xsize n < N)%nat -> forall up, Ok up n -> forall p, pattern U up n = Some p <-> RP U up n p) /\
  (forall n, (xsize n < N)%nat -> forall up, Ok up n -> forall g, grammar_content U up n = Some g <-> RG U up n g) /\
  (forall n, (xsize n < N)%nat -> forall up, Ok up n -> forall i, include_content U up n = Some i <-> RI U up n i).
Section Step.
Variable N : nat.
Hypothesis IH : All N.
Variables (up : ups) (nm : string) (atts : list xatt) (sc : list (option str * str)) (kids : list xnod).
Notation node := (XElt (Some rng_uri) (lit nm) atts sc kids).
Hypothesis HN : (xsize node < S N)%nat.
Hypothesis HO : Ok up node.
Lemma step_p : forall k, In k kids -> forall p, pattern U (atts :: up) k = Some p <-> RP U (atts :: up) k p.
Proof. intros k Hk. apply (proj1 IH); [apply (kid_size (Some rng_uri) (lit nm) atts sc) in Hk; lia | apply (Ok_kid _ _ _ _ _ _ HO Hk)]. Qed.
Lemma step_g : forall k, In k kids -> forall p, grammar_content U (atts :: up) k = Some p <-> RG U (atts :: up) k p.
Proof. intros k Hk. apply (proj1 (proj2 IH)); [apply (kid_size (Some rng_uri) (lit nm) atts sc) in Hk; lia | apply (Ok_kid _ _ _ _ _ _ HO Hk)]. Qed.
Lemma step_i : forall k, In k kids -> forall p, include_content U (atts :: up) k = Some p <-> RI U (atts :: up) k p.
Proof. intros k Hk. apply (proj2 (proj2 IH)); [apply (kid_size (Some rng_uri) (lit nm) atts sc) in Hk; lia | apply (Ok_kid _ _ _ _ _ _ HO Hk)]. Qed.
Lemma step_e : forall k a s gk g, In k kids -> k = XElt (Some rng_uri) (lit "except") a s gk -> In g gk -> forall x, pattern U (a :: atts :: up) g = Some x <-> RP U (a :: atts :: up) g x.
Proof.
  intros k a s gk g Hk -> Hg. pose proof (Ok_kid _ _ _ _ _ _ HO Hk) as HO'. apply (proj1 IH); [|apply (Ok_kid _ _ _ _ _ _ HO' Hg)].
  apply (kid_size (Some rng_uri) (lit nm) atts sc) in Hk. apply (kid_size (Some rng_uri) (lit "except") a s) in Hg. lia.
Qed.
Lemma step_n : forall (k : xnod), In k kids -> Ok (atts :: up) k -> forall c, name_class (atts :: up) false k = Some c <-> RN U (atts :: up) Outside k c.
Proof. intros k Hk HOk c. apply (name_class_ok (S (xsize k)) k ltac:(lia) (atts :: up) Outside HOk). discriminate. Qed.
End Step.
Lemma all_ok : forall N, All N.
Proof.
  induction N as [|N IH]; [split; [|split]; intros n H; lia|]. split; [|split]; intros n HN up HO; (destruct n as [ns nm atts sc kids|s|s|];
    [|split; [discriminate | intros H; inversion H; subst; try (match goal with D : RD _ _ _ _ _ _ |- _ => apply RD_names in D as (? & ? & ? & ? & D & _); discriminate D end); match goal with R : Rng _ _ _ _ _ |- _ => discriminate R end] ..]).
  - intros p. cbn [pattern]. destruct (is_rng ns) eqn:Er; cbn [andb].
    2:{ split; [discriminate|]. intros H. apply RP_rng in H as [-> _]. discriminate Er. }
    apply is_rng_true in Er. subst ns. destruct (find_entry nm pattern_kinds) as [kd|] eqn:Ek.
    2:{ split; [destruct (std_attrs U atts); discriminate|]. intros H. apply RP_rng in H as (_ & _ & n & Hn & ->). exfalso. exact (find_entry_none _ _ Ek n Hn eq_refl). }
    apply find_entry_name in Ek as (k & Hk & ->). pose proof (std_attrs_ok U atts (l_distinct _ _ _ _ _ _ (Ok_local _ _ _ _ _ HO))) as HS. destruct (std_attrs U atts).
    2:{ split; [discriminate|]. intros H. apply RP_rng in H as (_ & HL & _). apply HS in HL. discriminate HL. }
    pose proof (proj1 HS eq_refl) as HL. pose proof (step_p N IH up k atts sc kids HN HO) as Sp. pose proof (step_g N IH up k atts sc kids HN HO) as Sg.
    pose proof (step_e N IH up k atts sc kids HN HO) as Se. assert (Sn : forall k0, In k0 kids -> Ok (atts :: up) k0 -> forall c, name_class (atts :: up) false k0 = Some c <-> RN U (atts :: up) Outside k0 c) by (intros k0 _ HOk c; apply (name_class_ok (S (xsize k0)) k0 ltac:(lia) (atts :: up) Outside HOk); discriminate).
    cbn in Hk. repeat (destruct Hk as [Hk|Hk]; [injection Hk as <- <-|]); [..|destruct Hk].
    + exact (element_ok up atts sc kids HL Sp Sn p HO).
    + exact (attribute_ok up atts sc kids HL Sp Sn p HO).
    + exact (compound_ok up atts sc kids HL Sp _ _ _ p Cm_group HO).
    + rewrite <- opt1_id at 1. exact (compound_ok up atts sc kids HL Sp _ _ _ p Cm_interleave HO).
    + rewrite <- opt1_id at 1. exact (compound_ok up atts sc kids HL Sp _ _ _ p Cm_choice HO).
    + exact (compound_ok up atts sc kids HL Sp _ _ _ p Cm_optional HO).
    + exact (compound_ok up atts sc kids HL Sp _ _ _ p Cm_zeroOrMore HO).
    + exact (compound_ok up atts sc kids HL Sp _ _ _ p Cm_oneOrMore HO).
    + exact (compound_ok up atts sc kids HL Sp _ _ _ p Cm_list HO).
    + exact (compound_ok up atts sc kids HL Sp _ _ _ p Cm_mixed HO).
    + exact (ref_ok up atts sc kids HL _ _ p Rf_ref HO).
    + exact (ref_ok up atts sc kids HL _ _ p Rf_parentRef HO).
    + exact (simple_ok up atts sc kids HL _ _ p Sm_empty HO).
    + exact (simple_ok up atts sc kids HL _ _ p Sm_text HO).
    + exact (value_ok up atts sc kids HL Sp p HO).
    + exact (data_ok up atts sc kids HL Se p HO).
    + exact (simple_ok up atts sc kids HL _ _ p Sm_notAllowed HO).
    + exact (external_ok up atts sc kids HL p HO).
    + rewrite opt1_some. pose proof (each_ok _ _ kids (Ok_blank _ _ _ _ _ HO eq_refl) Sg) as HE. pose proof (Ok_local _ _ _ _ _ HO) as L. split.
      * intros (l & El & ->). apply HE in El as (ks & H1 & H2). apply (RP_grammar U up _ atts sc kids ks l); auto; [reflexivity | apply (l_only _ _ _ _ _ _ L), not_In_names; reflexivity].
      * intros H. inversion H; subst; kind. eexists. split; [apply HE; eauto | reflexivity].
  - intros g. cbn [grammar_content]. destruct (is_rng ns) eqn:Er.
    2:{ split; [discriminate|]. intros H. exfalso. assert (X : ns = Some rng_uri); [|subst; discriminate Er].
        inversion H; subst; [match goal with D : RD _ _ _ _ _ _ |- _ => apply RD_names in D as (? & ? & ? & ? & D & _); congruence end|..]; match goal with R : Rng _ _ _ _ _ |- _ => apply Rng_parts in R; apply R end. }
    apply is_rng_true in Er. subst ns. destruct (find_entry nm content_kinds) as [kd|] eqn:Ek.
    2:{ split; [discriminate|]. intros H. exfalso. pose proof (find_entry_none _ _ Ek) as Hno. cbn [content_kinds map fst] in Hno.
        assert (X : exists n, In n ["start"; "define"; "div"; "include"]%string /\ nm = lit n); [|destruct X as (n & Hn & E); exact (Hno n Hn E)].
        inversion H; subst; [match goal with D : RD _ _ _ _ _ _ |- _ => apply RD_names in D as (n & ? & ? & ? & D & D'); injection D as -> _ _ _; exists n; split; [destruct D' as [-> | ->]; apply In_dec_names; reflexivity | reflexivity] end|..];
        match goal with R : Rng _ _ _ _ _ |- _ => apply Rng_parts in R as (_ & -> & _) end; eexists; (split; [|reflexivity]); apply In_dec_names; reflexivity. }
    apply find_entry_name in Ek as (k & Hk & ->). pose proof (Ok_local _ _ _ _ _ HO) as L. pose proof (step_p N IH up k atts sc kids HN HO) as Sp. pose proof (step_g N IH up k atts sc kids HN HO) as Sg.
    pose proof (step_i N IH up k atts sc kids HN HO) as Si.
    assert (HL : LibOk U atts).
    { apply (l_lib _ _ _ _ _ _ L). left. apply not_In_names. cbn in Hk. repeat (destruct Hk as [Hk|Hk]; [injection Hk as <- <-; reflexivity|]). destruct Hk. }
    cbn in Hk. repeat (destruct Hk as [Hk|Hk]; [injection Hk as <- <-|]); [..|destruct Hk].
    + rewrite opt1_some. split.
      * intros ([[m h] q] & E & ->). constructor. apply start_ok; assumption.
      * intros H. inversion H; subst; try kind. match goal with D : RD _ _ _ ?m ?h ?q |- _ => exists (m, h, q); split; [apply (start_ok up atts sc kids HL Sp); assumption | reflexivity] end.
    + rewrite opt1_some. split.
      * intros ([[m h] q] & E & ->). constructor. apply define_ok; assumption.
      * intros H. inversion H; subst; try kind. match goal with D : RD _ _ _ ?m ?h ?q |- _ => exists (m, h, q); split; [apply (define_ok up atts sc kids HL Sp); assumption | reflexivity] end.
    + rewrite opt1_some. pose proof (each_ok _ _ kids (Ok_blank _ _ _ _ _ HO eq_refl) Sg) as HE. split.
      * intros (l & El & ->). apply HE in El as (ks & H1 & H2). apply (RG_div U up _ atts sc kids ks l); auto; [reflexivity | apply (l_only _ _ _ _ _ _ L), not_In_names; reflexivity].
      * intros H. inversion H; subst; try kind; [match goal with D : RD _ _ _ _ _ _ |- _ => inversion D; subst; kind end|]. eexists. split; [apply HE; eauto | reflexivity].
    + change (match att "href" atts, each (include_content U (atts :: up)) kids with Some h, Some l => Some (GInclude [rebase_path (atts :: up) h] None (Some l)) | _, _ => None end = Some g <-> RG U up (XElt (Some rng_uri) (lit "include") atts sc kids) g).
      pose proof (each_ok _ _ kids (Ok_blank _ _ _ _ _ HO eq_refl) Si) as HE. destruct (Ok_up _ _ _ _ _ HO) as [HD HB]. pose proof (l_distinct _ _ _ _ _ _ L) as Hd.
      destruct (l_file _ _ _ _ _ _ L ltac:(apply In_dec_names; reflexivity)) as [_ Hh]. split.
      * destruct (att "href" atts) as [h|] eqn:Ea; [|discriminate]. apply att_Has in Ea; [|exact Hd]. destruct (each _ kids) as [l|]; [|discriminate]. intros [= <-].
        destruct (proj1 (HE l) eq_refl) as (ks & H1 & H2). apply (RG_include U up _ atts sc kids h _ ks l); auto; [reflexivity | apply (l_only _ _ _ _ _ _ L), not_In_names; reflexivity | apply rebase_ok; auto].
      * intros H. inversion H; subst; try kind; [match goal with D : RD _ _ _ _ _ _ |- _ => inversion D; subst; kind end|].
        match goal with T : Has atts "href" ?h, R : Resolved _ _ _, E : Elements kids ?ks, F : Forall2 _ ?ks ?l |- _ =>
          rewrite (proj2 (att_Has _ _ _ Hd) T); apply rebase_ok in R; [|exact HD|exact HB|apply Hh; exact T]; rewrite (proj2 (HE l)) by eauto; rewrite R; reflexivity end.
  - intros i. cbn [include_content]. destruct (is_rng ns) eqn:Er.
    2:{ split; [discriminate|]. intros H. exfalso. assert (X : ns = Some rng_uri); [|subst; discriminate Er].
        inversion H; subst; [match goal with D : RD _ _ _ _ _ _ |- _ => apply RD_names in D as (? & ? & ? & ? & D & _); congruence end|..]; match goal with R : Rng _ _ _ _ _ |- _ => apply Rng_parts in R; apply R end. }
    apply is_rng_true in Er. subst ns. assert (Hcl : forall j, RI U up (XElt (Some rng_uri) nm atts sc kids) j -> exists n, In n ["start"; "define"; "div"]%string /\ nm = lit n).
    { intros j H. inversion H; subst; [match goal with D : RD _ _ _ _ _ _ |- _ => apply RD_names in D as (n & ? & ? & ? & D & D'); injection D as -> _ _ _; exists n; split; [destruct D' as [-> | ->]; apply In_dec_names; reflexivity | reflexivity] end|..];
        match goal with R : Rng _ _ _ _ _ |- _ => apply Rng_parts in R as (_ & -> & _) end; eexists; (split; [|reflexivity]); apply In_dec_names; reflexivity. }
    destruct (find_entry nm content_kinds) as [kd|] eqn:Ek.
    2:{ split; [discriminate|]. intros H. exfalso. pose proof (find_entry_none _ _ Ek) as Hno. cbn [content_kinds map fst] in Hno.
        apply Hcl in H as (n & Hn & E). apply (Hno n); [|exact E]. cbn in Hn |- *. tauto. }
    apply find_entry_name in Ek as (k & Hk & ->). pose proof (Ok_local _ _ _ _ _ HO) as L. pose proof (step_p N IH up k atts sc kids HN HO) as Sp. 
    pose proof (step_i N IH up k atts sc kids HN HO) as Si.
    assert (HL : LibOk U atts).
    { apply (l_lib _ _ _ _ _ _ L). left. apply not_In_names. cbn in Hk. repeat (destruct Hk as [Hk|Hk]; [injection Hk as <- <-; reflexivity|]). destruct Hk. }
    cbn in Hk. repeat (destruct Hk as [Hk|Hk]; [injection Hk as <- <-|]); [..|destruct Hk].
    + rewrite opt1_some. split.
      * intros ([[m h] q] & E & ->). constructor. apply start_ok; assumption.
      * intros H. inversion H; subst; try kind. match goal with D : RD _ _ _ ?m ?h ?q |- _ => exists (m, h, q); split; [apply (start_ok up atts sc kids HL Sp); assumption | reflexivity] end.
    + rewrite opt1_some. split.
      * intros ([[m h] q] & E & ->). constructor. apply define_ok; assumption.
      * intros H. inversion H; subst; try kind. match goal with D : RD _ _ _ ?m ?h ?q |- _ => exists (m, h, q); split; [apply (define_ok up atts sc kids HL Sp); assumption | reflexivity] end.
    + rewrite opt1_some. pose proof (each_ok _ _ kids (Ok_blank _ _ _ _ _ HO eq_refl) Si) as HE. split.
      * intros (l & El & ->). apply HE in El as (ks & H1 & H2). apply (RI_div U up _ atts sc kids ks l); auto; [reflexivity | apply (l_only _ _ _ _ _ _ L), not_In_names; reflexivity].
      * intros H. inversion H; subst; try kind; [match goal with D : RD _ _ _ _ _ _ |- _ => inversion D; subst; kind end|]. eexists. split; [apply HE; eauto | reflexivity].
    + split; [discriminate|]. intros H. apply Hcl in H as (n & Hn & E). exfalso. apply lit_inj in E. subst n. cbn in Hn. intuition discriminate.
Qed.

Lemma parse_ok X s : XScope U X -> (parse U X = Some s <-> Stands U X s).
Proof.
  intros HX. assert (HO : Ok [] X) by (split; [exact HX | split; constructor]). destruct (all_ok (S (xsize X))) as (HP & HG & _).
  specialize (HP X ltac:(lia) [] HO). destruct X as [ns nm atts sc kids|t|t|].
  2-4: split; [discriminate | intros H; inversion H; subst; match goal with R : RP _ _ _ _ |- _ => apply HP in R; discriminate R end].
  unfold parse. destruct (is_rng ns) eqn:Er.
  2:{ split; [discriminate|]. intros H. inversion H; subst; match goal with R : RP _ _ _ _ |- _ => apply RP_rng in R as [-> _]; discriminate Er end. }
  apply is_rng_true in Er. subst ns. destruct (str_eqb nm (lit "grammar")) eqn:En.
  - apply str_eqb_eq in En. subst nm. pose proof (Ok_local _ _ _ _ _ HO) as L. assert (HL : LibOk U atts) by (apply (l_lib _ _ _ _ _ _ L); right; right; split; reflexivity).
    assert (HE : forall l, each (grammar_content U [atts]) kids = Some l <-> exists ks, Elements kids ks /\ Forall2 (RG U [atts]) ks l).
    { apply each_ok; [apply (Ok_blank _ _ _ _ _ HO eq_refl)|]. intros k Hk x. apply (proj1 (proj2 (all_ok (S (xsize k))))); [lia | apply (Ok_kid _ _ _ _ _ _ HO Hk)]. }
    split.
    + destruct (each _ kids) as [l|]; [|discriminate]. intros [= <-]. apply (Sd_grammar U _ atts sc kids); [reflexivity|]. destruct (proj1 (HE l) eq_refl) as (ks & H1 & H2).
      apply (RP_grammar U [] _ atts sc kids ks l); auto; [reflexivity | apply (l_only _ _ _ _ _ _ L), not_In_names; reflexivity].
    + intros H. inversion H as [n a' s' k' gs HG' HR|n p Hno HR]; subst.
      * inversion HR; subst; try kind. rewrite (proj2 (HE gs)) by eauto. reflexivity.
      * exfalso. exact (Hno atts sc kids eq_refl).
  - apply str_eqb_neq in En. split.
    + destruct (pattern U [] _) as [p|] eqn:Ep; [|discriminate]. intros [= <-]. constructor; [|exact (proj1 (HP p) eq_refl)]. intros a s' k HG'. apply Rng_parts in HG' as (_ & E & _). exact (En E).
    + intros H. inversion H as [n a' s' k' gs HG' HR|n p Hno HR]; subst; [apply Rng_parts in HG' as (_ & E & _); destruct (En E)|]. apply HP in HR. rewrite HR. reflexivity.
Qed.
End Proof.
Lemma stands_unique U X s s' : XScope U X -> Stands U X s -> Stands U X s' -> s = s'.
Proof. intros H H1 H2. apply parse_ok in H1, H2; [congruence | exact H | exact H]. Qed.
