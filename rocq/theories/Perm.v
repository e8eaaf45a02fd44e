(** * Perm: attribute order. *)
From Coq Require Import Permutation.
From Verif Require Import Base Datatype Store Events Lang LangFacts Doc Compile Spec SpecFacts Infoset InfosetProof Scope Main.

(** ** Items up to attribute order *)
Inductive iperm : item -> item -> Prop :=
| ip_txt s : iperm (Txt s) (Txt s)
| ip_elm nm a b k l : Permutation a b -> iperms k l -> iperm (Elm nm a k) (Elm nm b l)
with iperms : list item -> list item -> Prop :=
| ips_nil : iperms [] []
| ips_cons x y k l : iperm x y -> iperms k l -> iperms (x :: k) (y :: l).
Scheme iperm_mut := Minimality for iperm Sort Prop
  with iperms_mut := Minimality for iperms Sort Prop.
Combined Scheme iperm_ind2 from iperm_mut, iperms_mut.

Lemma iperms_app_inv u : forall v w, iperms (u ++ v) w -> exists u' v', w = u' ++ v' /\ iperms u u' /\ iperms v v'.
Proof.
  induction u as [|x u IH]; intros v w H; cbn in H.
  - exists [], w. repeat split; [constructor | exact H].
  - inversion H as [|? y ? l Hx Hl]; subst. destruct (IH _ _ Hl) as (u' & v' & -> & H1 & H2). exists (y :: u'), v'. repeat split; [constructor; assumption | exact H2].
Qed.
Lemma iperms_app u v u' v' : iperms u u' -> iperms v v' -> iperms (u ++ v) (u' ++ v').
Proof. induction 1; intros; cbn; [assumption | constructor; auto]. Qed.
Lemma iperms_merge_inv u v w : merge u v w -> forall w', iperms w w' -> exists u' v', merge u' v' w' /\ iperms u u' /\ iperms v v'.
Proof.
  induction 1 as [|x u v w Hm IH|x u v w Hm IH]; intros w' H.
  - inversion H; subst. exists [], []. repeat split; constructor.
  - inversion H as [|? y ? l Hx Hl]; subst. destruct (IH _ Hl) as (u' & v' & Hm' & H1 & H2). exists (y :: u'), v'. repeat split; [constructor; exact Hm' | constructor; assumption | exact H2].
  - inversion H as [|? y ? l Hx Hl]; subst. destruct (IH _ Hl) as (u' & v' & Hm' & H1 & H2). exists u', (y :: v'). repeat split; [constructor; exact Hm' | exact H1 | constructor; assumption].
Qed.
Lemma iperms_texts m m' : Forall (fun i => exists s, i = Txt s) m -> iperms m m' -> m' = m.
Proof.
  intros HF H. induction H as [|x y k l Hx Hl IH]; [reflexivity|]. inversion HF as [|? ? [s ->] HF']; subst. inversion Hx; subst. rewrite IH by exact HF'. reflexivity.
Qed.
Lemma iperms_one s m' : iperms [Txt s] m' -> m' = [Txt s].
Proof. intros H. inversion H as [|x y k l Hx Hl]; subst. inversion Hx; subst. inversion Hl; subst. reflexivity. Qed.
Lemma iperms_ws m m' : ws m -> iperms m m' -> m' = m.
Proof. intros H Hp. apply iperms_texts; [|exact Hp]. destruct H as [->|(s & -> & _)]; constructor; [eauto | constructor]. Qed.
Lemma iperms_children k k' : iperms k k' -> children_ok k -> children_ok k'.
Proof.
  intros H [H1 H2]. split.
  - intros Hi. apply H1. clear -H Hi. induction H as [|x y k l Hx Hl IH]; [destruct Hi|]. destruct Hi as [->|Hi]; [inversion Hx; subst; left; reflexivity | right; auto].
  - clear H1. induction H as [|x y k l Hx Hl IH]; [exact I|]. inversion Hx as [s|nm a b kk ll Hab Hkk]; subst.
    + inversion Hl as [|x2 y2 k2 l2 Hx2 Hl2]; subst; [exact I|]. inversion Hx2; subst; [destruct H2 | exact (IH H2)].
    + exact (IH H2).
Qed.

Section P.
Variable sp : N -> bool.
Variable O : oracles.
Variable defs : list mpat.
Variable w3 : bool.
Notation M := (Mg sp O defs w3). Notation W := (Wg sp O defs w3).
Theorem M_iperm : (forall a m X, M a m X -> forall b m', Permutation a b -> iperms m m' -> M b m' X) /\
  (forall a m X, W a m X -> forall b m', Permutation a b -> iperms m m' -> W b m' X).
Proof.
  apply MW_ind.
  - intros x l a m Hin Hx IH b m' HP HI. eapply M_choice; eauto.
  - intros x a m Hx IH b m' HP HI. apply M_group_one; auto.
  - intros x y l a1 a2 a m1 m2 HPa Hx IHx Hl IHl b m' HP HI. destruct (iperms_app_inv _ _ _ HI) as (u & v & -> & H1 & H2).
    eapply M_group; [rewrite <- HP; exact HPa | apply IHx; auto | apply IHl; auto].
  - intros x a m Hx IH b m' HP HI. apply M_inter_one; auto.
  - intros x y l a1 a2 a m1 m2 m HPa Hm Hx IHx Hl IHl b m' HP HI. destruct (iperms_merge_inv _ _ _ Hm _ HI) as (u & v & Hm' & H1 & H2).
    eapply M_inter; [rewrite <- HP; exact HPa | exact Hm' | apply IHx; auto | apply IHl; auto].
  - intros p a m Hp IH b m' HP HI. apply M_mixed; auto.
  - intros p a m Hp IH b m' HP HI. apply M_optional; auto.
  - intros p a m Hp IH b m' HP HI. apply M_zero; auto.
  - intros p a m Hp IH b m' HP HI. apply M_one; auto.
  - intros p a1 a2 a m1 m2 HPa Hp IHp Hq IHq b m' HP HI. destruct (iperms_app_inv _ _ _ HI) as (u & v & -> & H1 & H2).
    eapply M_more; [rewrite <- HP; exact HPa | apply IHp; auto | apply IHq; auto].
  - intros b m' HP HI. apply Permutation_nil in HP; subst. inversion HI; subst. constructor.
  - intros m Hm b m' HP HI. apply Permutation_nil in HP; subst. rewrite (iperms_texts _ _ Hm HI). apply M_text; exact Hm.
  - intros nc p x Hc Hw IH b m' HP HI. apply Permutation_length_1_inv in HP; subst. inversion HI; subst. apply M_attribute; assumption.
  - intros nc p nm a k ws1 ws2 Hc Hk Hw IH H1 H2 b m' HP HI. apply Permutation_nil in HP; subst.
    destruct (iperms_app_inv _ _ _ HI) as (u & v & -> & I1 & I2). inversion I2 as [|? y ? l Hy Hl]; subst. inversion Hy as [|? ? a' ? k' Ha' Hk']; subst.
    rewrite (iperms_ws _ _ H1 I1), (iperms_ws _ _ H2 Hl). apply M_element; auto. eapply iperms_children; eassumption.
  - intros r X a m Hb HX IH b m' HP HI. eapply M_ref; eauto.
  - intros d s Hd b m' HP HI. apply Permutation_nil in HP; subst. rewrite (iperms_one _ _ HI). apply M_data; exact Hd.
  - intros d e s Hd He b m' HP HI. apply Permutation_nil in HP; subst. rewrite (iperms_one _ _ HI). apply M_except; assumption.
  - intros v s Hd b m' HP HI. apply Permutation_nil in HP; subst. rewrite (iperms_one _ _ HI). apply M_value; exact Hd.
  - intros p s Hp _ b m' HP HI. apply Permutation_nil in HP; subst. rewrite (iperms_one _ _ HI). apply M_list; exact Hp.
  - intros a m p Hm IH b m' HP HI. apply W_1; auto.
  - intros a s p Hb Hm IH b m' HP HI. rewrite (iperms_one _ _ HI). apply W_2; [exact Hb | apply IH; [exact HP | constructor]].
  - intros a p Hw Hm IH b m' HP HI. assert (m' = []) as -> by (inversion HI; reflexivity). apply W_3; [exact Hw|]. apply IH; [exact HP|]. constructor; constructor.
Qed.
End P.
Arguments M_iperm {sp}.
Lemma Permutation_sym' {A} (a b : list A) : Permutation a b -> Permutation b a.
Proof. apply Permutation_sym. Qed.
Lemma iperm_sym : (forall x y, iperm x y -> iperm y x) /\ (forall k l, iperms k l -> iperms l k).
Proof. apply iperm_ind2; intros; constructor; auto using Permutation_sym'. Qed.
Lemma iperm_plain : (forall x y, iperm x y -> plain_item x -> plain_item y) /\ (forall k l, iperms k l -> plain_items k -> plain_items l).
Proof.
  apply iperm_ind2.
  - auto.
  - intros nm a b k l HP Hk IH H. apply (proj1 (plain_elm nm a k)) in H. apply (proj2 (plain_elm nm b l)). destruct H as [H1 H2].
    split; [eapply Permutation_Forall; eassumption | auto].
  - auto.
  - intros x y k l Hx IHx Hk IHk [H1 H2]; split; auto.
Qed.
Lemma iperms_joined k l : iperms k l -> iperms (joined k) (joined l).
Proof.
  induction 1 as [|x y k l Hx Hl IH]; [constructor|]. inversion Hx as [s|nm a b kk ll HP Hk]; subst; cbn [joined].
  - inversion IH as [E1 E2|x2 y2 k2 l2 Hx2 Hl2 E1 E2].
    + destruct s; repeat constructor.
    + inversion Hx2; subst.
      * constructor; [constructor | exact Hl2].
      * destruct s; repeat (constructor; try assumption).
  - constructor; [constructor; assumption | exact IH].
Qed.

(** ** Documents up to attribute order *)
Inductive xperm : xnode -> xnode -> Prop :=
| xp_text st r : xperm (XText st r) (XText st r)
| xp_cdata s : xperm (XCdata s) (XCdata s)
| xp_comment s : xperm (XComment s) (XComment s)
| xp_pi s : xperm (XPI s) (XPI s)
| xp_elem p l a b sc k k' : Permutation a b -> xperms k k' -> xperm (XElem p l a sc k) (XElem p l b sc k')
with xperms : list xnode -> list xnode -> Prop :=
| xps_nil : xperms [] []
| xps_cons x y k l : xperm x y -> xperms k l -> xperms (x :: k) (y :: l).
Scheme xperm_mut := Minimality for xperm Sort Prop
  with xperms_mut := Minimality for xperms Sort Prop.
Combined Scheme xperm_ind2 from xperm_mut, xperms_mut.
(** [reordered d d']: [d'] is [d] with the attributes of each start tag in another order *)
Definition reordered (d d' : xdoc) : Prop :=
  d_prolog d = d_prolog d' /\ d_epilog d = d_epilog d' /\ xperm (d_root d) (d_root d').

Lemma flat_map_perm {A B} (f : A -> list B) a b : Permutation a b -> Permutation (flat_map f a) (flat_map f b).
Proof. intros H; apply Permutation_flat_map; exact H. Qed.
Lemma ns_declared_perm a b : Permutation a b -> Permutation (ns_declared a) (ns_declared b).
Proof. apply flat_map_perm. Qed.
Lemma filter_perm {A} (f : A -> bool) a b : Permutation a b -> Permutation (filter f a) (filter f b).
Proof.
  induction 1 as [|x a b H IH|x y a|a b c H1 IH1 H2 IH2]; cbn; [constructor| | |etransitivity; eassumption].
  - destruct (f x); [constructor|]; exact IH.
  - destruct (f x), (f y); try reflexivity. constructor.
Qed.
Lemma first_binding_app k a b : first_binding k (a ++ b) = match first_binding k a with Some v => Some v | None => first_binding k b end.
Proof. induction a as [|[k' v'] a IH]; cbn; [reflexivity|]. destruct (str_eqb k k'); [reflexivity | exact IH]. Qed.
Lemma first_binding_ex k v l : In (k, v) l -> exists v', first_binding k l = Some v'.
Proof.
  induction l as [|[k' v'] l IH]; cbn; [intros []|]. intros [H|H].
  - injection H as -> ->. rewrite str_eqb_refl; eauto.
  - destruct (str_eqb k k'); [eauto | auto].
Qed.
Lemma first_binding_perm k a b : (forall p u u', In (p, u) a -> In (p, u') a -> u = u') -> Permutation a b -> first_binding k a = first_binding k b.
Proof.
  intros Hf HP. destruct (first_binding k a) as [v|] eqn:Ea; destruct (first_binding k b) as [v'|] eqn:Eb; auto.
  - apply first_binding_In in Ea, Eb. f_equal. eapply Hf; [exact Ea|]. eapply Permutation_in; [symmetry; exact HP | exact Eb].
  - apply first_binding_In in Ea. destruct (first_binding_ex k v b) as [w Hw]; [eapply Permutation_in; eassumption | congruence].
  - apply first_binding_In in Eb. destruct (first_binding_ex k v' a) as [w Hw]; [eapply Permutation_in; [symmetry|]; eassumption | congruence].
Qed.
Definition env_eq (e e' : nsenv) : Prop := forall p, first_binding p e = first_binding p e'.
Lemma elem_ns_eq e e' p u : env_eq e e' -> elem_ns e p u -> elem_ns e' p u.
Proof. intros H HE; inversion HE; subst; rewrite H in *; constructor; assumption. Qed.
Lemma Att_eq ents e e' x y : env_eq e e' -> Att ents e x y -> Att ents e' x y.
Proof.
  intros H HA. inversion HA as [p l v u v' Hu Hv]; subst. constructor; [|exact Hv].
  inversion Hu; subst; [rewrite H in *; constructor; assumption | constructor].
Qed.
Lemma Forall2_perm {A B} (R : A -> B -> Prop) a b : Permutation a b -> forall c, Forall2 R a c -> exists d, Forall2 R b d /\ Permutation c d.
Proof.
  induction 1 as [|x a b H IH|x y a|a b c H1 IH1 H2 IH2]; intros z HF.
  - exists []; inversion HF; subst; split; constructor.
  - inversion HF as [|? w ? z' Hw Hz]; subst. destruct (IH _ Hz) as (d & Hd & HP). exists (w :: d). split; constructor; assumption.
  - inversion HF as [|? w ? z' Hw Hz]; subst. inversion Hz as [|? w2 ? z2 Hw2 Hz2]; subst. exists (w2 :: w :: z2). split; [repeat constructor; assumption | constructor].
  - destruct (IH1 _ HF) as (d & Hd & HP). destruct (IH2 _ Hd) as (d' & Hd' & HP'). exists d'. split; [exact Hd' | etransitivity; eassumption].
Qed.

Lemma Forall2_imp {A B} (R S : A -> B -> Prop) : (forall x y, R x y -> S x y) -> forall a b, Forall2 R a b -> Forall2 S a b.
Proof. induction 2; constructor; auto. Qed.
Fixpoint decls_ok (x : xnode) : Prop :=
  match x with
  | XElem _ _ a _ kids => (forall p u u', In (p, u) (ns_declared a) -> In (p, u') (ns_declared a) -> u = u') /\
      (fix go (ks : list xnode) : Prop := match ks with [] => True | k :: ks' => decls_ok k /\ go ks' end) kids
  | _ => True
  end.
Fixpoint decls_oks (ks : list xnode) : Prop := match ks with [] => True | k :: ks' => decls_ok k /\ decls_oks ks' end.
Lemma Node_perm ents :
  (forall env x i, Node ents env x i -> decls_ok x -> forall env' x', env_eq env env' -> xperm x x' -> exists i', Node ents env' x' i' /\ iperms i i') /\
  (forall env k i, Nodes ents env k i -> decls_oks k -> forall env' k', env_eq env env' -> xperms k k' -> exists i', Nodes ents env' k' i' /\ iperms i i').
Proof.
  apply Node_Nodes_ind.
  - intros env start raw s HD _ env' x' HE HX. inversion HX; subst. exists [Txt s]. split; [constructor; exact HD | repeat constructor].
  - intros env s _ env' x' HE HX. inversion HX; subst. exists [Txt s]. split; repeat constructor.
  - intros env s _ env' x' HE HX. inversion HX; subst. exists []. split; constructor.
  - intros env s _ env' x' HE HX. inversion HX; subst. exists []. split; constructor.
  - intros env p l a sc kids u atts ks H1 H2 H3 IH [Hd Hds] env' x' HE HX. inversion HX as [| | | |? ? ? b ? ? k' HP HK]; subst.
    assert (HE' : env_eq (ns_declared a ++ env) (ns_declared b ++ env')).
    { intros q. rewrite !first_binding_app, (first_binding_perm q _ _ Hd (ns_declared_perm _ _ HP)), HE. reflexivity. }
    destruct (IH Hds _ _ HE' HK) as (ks' & Hks & HI).
    assert (H2' : Forall2 (Att ents (ns_declared b ++ env')) (ordinary a) atts) by (eapply Forall2_imp; [|exact H2]; intros; eapply Att_eq; eassumption).
    destruct (Forall2_perm _ _ _ (filter_perm _ _ _ HP) _ H2') as (atts' & Ha & HPa).
    eexists; split; [econstructor; [eapply elem_ns_eq; eassumption | exact Ha | exact Hks]|].
    constructor; [|constructor]. constructor; [exact HPa | apply iperms_joined; exact HI].
  - intros env _ env' k' HE HX. inversion HX; subst. exists []. split; constructor.
  - intros env k ks i is Hk IHk Hks IHks [Hd Hds] env' k' HE HX. inversion HX as [|? y ? l Hx Hl]; subst.
    destruct (IHk Hd _ _ HE Hx) as (i' & Hi & HI). destruct (IHks Hds _ _ HE Hl) as (is' & His & HIs).
    exists (i' ++ is'). split; [constructor; assumption | apply iperms_app; assumption].
Qed.
Lemma decls_ok_all D : (forall p u u', In (p, u) D -> In (p, u') D -> u = u') -> forall x : xnode, (forall y, In y (all_decls x) -> In y D) -> decls_ok x.
Proof.
  intros HD x. induction x as [| | | |p l a sc kids IH] using xnode_ind'; intros Hx; try exact I.
  cbn [all_decls] in Hx. split.
  - intros q u u' H1 H2. eapply HD; apply Hx, in_or_app; left; eassumption.
  - assert (Hk : forall y, In y (all_decls_l kids) -> In y D).
    { intros y Hy. apply Hx, in_or_app. right. exact Hy. }
    clear Hx. induction IH as [|k ks Hk0 _ IHk]; [exact I|]. split; [apply Hk0 | apply IHk]; intros y Hy; apply Hk; cbn [all_decls_l]; apply in_or_app; auto.
Qed.
Lemma xperm_decls : (forall x y, xperm x y -> forall z, In z (all_decls y) -> In z (all_decls x)) /\
  (forall k l, xperms k l -> forall z, In z (all_decls_l l) -> In z (all_decls_l k)).
Proof.
  apply xperm_ind2; try (intros; assumption).
  - intros p l a b sc k k' HP HK IH z Hz. cbn [all_decls] in *. apply in_app_or in Hz. apply in_or_app. destruct Hz as [Hz|Hz].
    + left. eapply Permutation_in; [symmetry; apply ns_declared_perm; exact HP | exact Hz].
    + right. apply (IH z). exact Hz.
  - intros x y k l Hx IHx Hk IHk z Hz. cbn [all_decls_l] in *. apply in_app_or in Hz. apply in_or_app. destruct Hz; [left | right]; auto.
Qed.
Lemma xperm_kind x y : xperm x y -> invisible x = invisible y /\ char_data x = char_data y.
Proof. destruct 1; auto. Qed.
Lemma xperms_apart k l : xperms k l -> forall b, apart b k -> apart b l.
Proof.
  induction 1 as [|x y k l Hx Hl IH]; intros b; [auto|]. destruct (xperm_kind _ _ Hx) as [E1 E2]. cbn [apart]. rewrite E1, E2.
  destruct (invisible y); [apply IH|]. intros [H1 H2]; split; [exact H1 | apply IH; exact H2].
Qed.
Lemma legible_elem decl p l a sc k : legible decl (XElem p l a sc k) <-> p <> xml_prefix /\
      Forall (fun '(q, _, v) => q <> xml_prefix /\ clean_value v) (ordinary a) /\ legibles decl k.
Proof.
  cbn [legible]. match goal with |- (_ /\ _ /\ ?f k) <-> _ => assert (H : forall l, f l <-> legibles decl l) end.
  { induction l0 as [|x l0 IH]; cbn; [tauto|]. rewrite IH. tauto. }
  rewrite H. reflexivity.
Qed.
Lemma xperm_legible decl : (forall x y, xperm x y -> legible decl x -> legible decl y) /\ (forall k l, xperms k l -> legibles decl k -> legibles decl l).
Proof.
  apply xperm_ind2; try (intros; assumption).
  - intros p l a b sc k k' HP HK IH H. apply (proj1 (legible_elem _ _ _ _ _ _)) in H. apply (proj2 (legible_elem _ _ _ _ _ _)). destruct H as (H1 & H2 & H4).
    split; [exact H1|]. split; [eapply Permutation_Forall; [apply filter_perm; exact HP | exact H2] | auto].
  - intros x y k l Hx IHx Hk IHk [H1 H2]; split; auto.
Qed.
Lemma reordered_reads d d' : reordered d d' -> doc_reads d -> doc_reads d'.
Proof.
  intros (E1 & E2 & HX) [Hwf Hpre Hdef Hnd Hval Hcl]. constructor.
  - destruct Hwf as (W1 & W2 & W3). split; [rewrite <- E1; exact W1|]. split; [rewrite <- E2; exact W2|].
    destruct HX; exact W3.
  - intros p u u' H1 H2. eapply Hpre; apply (proj1 xperm_decls _ _ HX); eassumption.
  - intros u H. apply (Hdef u). apply (proj1 xperm_decls _ _ HX); exact H.
  - rewrite <- E1; exact Hnd.
  - rewrite <- E1; exact Hval.
  - rewrite <- E1. apply (proj1 (xperm_legible _) _ _ HX); exact Hcl.
Qed.
Lemma xperms_cdata k l : xperms k l -> In (XCdata []) l -> In (XCdata []) k.
Proof. induction 1 as [|x y k l Hx Hl IH]; [auto|]. intros [->|H]; [left; inversion Hx; reflexivity | right; auto]. Qed.
Lemma xperms_in k l y : xperms k l -> In y l -> exists x, In x k /\ xperm x y.
Proof. induction 1 as [|x z k l Hx Hl IH]; [intros []|]. intros [->|H]; [exists x; split; [left; reflexivity | exact Hx]|]. destruct (IH H) as (x' & H1 & H2). exists x'. split; [right; exact H1 | exact H2]. Qed.
Lemma decls_oks_in ks k : decls_oks ks -> In k ks -> decls_ok k.
Proof. induction ks as [|x ks IH]; [intros _ []|]. intros [H1 H2] [->|H]; [exact H1 | exact (IH H2 H)]. Qed.
Lemma SplitIn_perm env' y q : SplitIn env' y q -> forall env x, decls_ok x -> env_eq env env' -> xperm x y -> SplitIn env x q.
Proof.
  induction 1 as [env' p l b sc kids' u Hu Hs|env' p l b sc kids' k' q Hk Hkq IH]; intros env x Hd HE HX; inversion HX as [| | | |? ? a ? ? kids ? HP HK]; subst.
  - destruct Hd as [Hd _].
    assert (HE' : env_eq (ns_declared b ++ env') (ns_declared a ++ env)).
    { intros q. rewrite !first_binding_app, (first_binding_perm q _ _ Hd (ns_declared_perm _ _ HP)), HE. reflexivity. }
    apply split_here; [eapply elem_ns_eq; eassumption|]. destruct Hs as [Hs|Hs]; [left; intros H; apply Hs; eapply xperms_apart; eassumption | right; eapply xperms_cdata; eassumption].
  - destruct Hd as [Hd Hds].
    assert (HE' : env_eq (ns_declared a ++ env) (ns_declared b ++ env')).
    { intros r. rewrite !first_binding_app, (first_binding_perm r _ _ Hd (ns_declared_perm _ _ HP)), HE. reflexivity. }
    destruct (xperms_in _ _ _ HK Hk) as (k0 & Hin & Hp). eapply split_below; [exact Hin|]. apply IH; [eapply decls_oks_in; [exact Hds | exact Hin] | exact HE' | exact Hp].
Qed.
Lemma reordered_fits defs start d d' : reordered d d' -> doc_fits defs start d -> doc_fits defs start d'.
Proof.
  intros HX [H1 H2]. constructor; [eapply reordered_reads; eassumption|]. intros q Hq. apply H2. destruct HX as (_ & _ & HX).
  eapply SplitIn_perm; [exact Hq | exact (decls_ok_all _ (dr_prefixes d H1) _ (fun y H => H)) | intros p; reflexivity | exact HX].
Qed.
Lemma reordered_Document d d' root : reordered d d' -> doc_reads d -> Document d root -> exists root', Document d' root' /\ iperm root root'.
Proof.
  intros (E1 & E2 & HX) Hsc HD. unfold Document in *.
  destruct (proj1 (Node_perm _) _ _ _ HD (decls_ok_all _ (dr_prefixes d Hsc) _ (fun y H => H)) initial_env (d_root d') (fun p => eq_refl) HX) as (i' & Hi & HI).
  inversion HI as [|x y k l Hx Hl]; subst. inversion Hl; subst. exists y. rewrite <- E1. auto.
Qed.

Lemma acc_rej O defs start ts : accepts O defs start ts -> rejects O defs start ts -> False.
Proof. intros [v S1] (v' & e & S2). discriminate (settles_fun _ _ _ S1 S2). Qed.
Lemma acc_over O defs start ts : accepts O defs start ts -> overflows O defs start ts -> False.
Proof. intros [v S1] S2. discriminate (settles_fun _ _ _ S1 S2). Qed.
Lemma rej_over O defs start ts : rejects O defs start ts -> overflows O defs start ts -> False.
Proof. intros (v & e & S1) S2. discriminate (settles_fun _ _ _ S1 S2). Qed.

(** attribute order does not influence the verdict *)
Theorem order_irrelevant O defs start d d' root : rng_schema defs start -> in_limits defs start ->
  doc_fits defs start d -> Document d root -> reordered d d' ->
  (accepts O defs start (doc_tokens d) -> accepts O defs start (doc_tokens d') \/ overflows O defs start (doc_tokens d')) /\
  (rejects O defs start (doc_tokens d) -> rejects O defs start (doc_tokens d') \/ overflows O defs start (doc_tokens d')).
Proof.
  intros HR HL Hsc HD HX. destruct (reordered_Document d d' root HX (df_reads _ _ _ Hsc) HD) as (root' & HD' & HI).
  pose proof (reordered_fits defs start d d' HX Hsc) as Hsc'.
  assert (HM : Mg is_uni_ws O defs false [] [root] start <-> Mg is_uni_ws O defs false [] [root'] start).
  { split; intros H; (eapply (proj1 (M_iperm O defs false)); [exact H | constructor | constructor; [|constructor]]); [exact HI | apply (proj1 iperm_sym); exact HI]. }
  destruct (main_decides_uni O defs start HR HL d root Hsc HD) as [[A1 A2]|[[A1 A2]|A]];
    destruct (main_decides_uni O defs start HR HL d' root' Hsc' HD') as [[B1 B2]|[[B1 B2]|B]]; split; intros Hx; auto; exfalso; try tauto.
  all: eauto using acc_rej, acc_over, rej_over.
Qed.
