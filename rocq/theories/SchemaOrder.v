(** * SchemaOrder: definitions may come in any order (proof machinery for C29).

    [same_env]: two scopes with the same declarations, in the same directory.  [same_gram]: two
    grammars whose definitions are the same up to order and such scopes. *)
From Coq Require Import Permutation String.
From Verif Require Import Base Datatype Facets Store Lang Compile Syntax SchemaCompile Spec SourceSpec SourceTr SourceSem SourceCompile.

Record same_env (e e' : fenv) : Prop := {
  se_path : same_dir (fe_path e) (fe_path e');
  se_decls : fe_decls e' = fe_decls e;
  se_inherited : fe_inherited e' = fe_inherited e }.
Record same_def (d d' : sdef) : Prop := {
  sd_name : d_name d' = d_name d; sd_how : d_how d' = d_how d; sd_env : same_env (d_env d) (d_env d'); sd_body : d_body d' = d_body d }.
Definition same_gram (g g' : list sdef) : Prop := exists h, Permutation g h /\ Forall2 same_def h g'.

Lemma same_env_refl e : same_env e e.
Proof. constructor; [intros h; reflexivity | reflexivity..]. Qed.
Lemma same_env_sym e e' : same_env e e' -> same_env e' e.
Proof. intros [A B D]. constructor; [intros h; symmetry; apply A | congruence..]. Qed.
Lemma same_def_refl d : same_def d d.
Proof. constructor; try reflexivity. apply same_env_refl. Qed.
Lemma same_def_sym d d' : same_def d d' -> same_def d' d.
Proof. intros [A B D E]. constructor; try congruence. apply same_env_sym; exact D. Qed.
Lemma Forall2_flip' {A B} (R : A -> B -> Prop) (Q : B -> A -> Prop) l l' : (forall x y, R x y -> Q y x) -> Forall2 R l l' -> Forall2 Q l' l.
Proof. intros H. induction 1; constructor; auto. Qed.
Lemma Forall2_perm {A B} (R : A -> B -> Prop) l l' k' : Forall2 R l l' -> Permutation l' k' -> exists k, Permutation l k /\ Forall2 R k k'.
Proof.
  intros H P. revert l H. induction P as [|x a b P IH|x y a|a b c P1 IH1 P2 IH2]; intros l H.
  - inversion H; subst. exists []. split; constructor.
  - inversion H as [|u v w z Hu Hw]; subst. destruct (IH _ Hw) as (k & K1 & K2). exists (u :: k). split; constructor; assumption.
  - inversion H as [|u v w z Hu Hw]; subst. inversion Hw as [|u' v' w' z' Hu' Hw']; subst. exists (u' :: u :: w'). split; [constructor | repeat constructor; assumption].
  - destruct (IH1 _ H) as (k1 & K1 & K2). destruct (IH2 _ K2) as (k2 & K3 & K4). exists k2. split; [etransitivity; eassumption | exact K4].
Qed.
Lemma same_gram_sym g g' : same_gram g g' -> same_gram g' g.
Proof.
  intros (h & P & F). apply (Forall2_flip' _ same_def) in F; [|apply same_def_sym]. apply Permutation_sym in P. destruct (Forall2_perm _ _ _ _ F P) as (k & K1 & K2). exists k. auto.
Qed.
Lemma same_gram_refl g : same_gram g g.
Proof. exists g. split; [apply Permutation_refl|]. induction g; constructor; [apply same_def_refl | assumption]. Qed.

Lemma same_names l l' : Forall2 same_def l l' -> names_of l' = names_of l.
Proof. unfold names_of. induction 1 as [|d d' l l' H _ IH]; [reflexivity|]. cbn. rewrite IH, (sd_name _ _ H). reflexivity. Qed.
Lemma same_filter (f : sdef -> bool) l l' : (forall d d', same_def d d' -> f d' = f d) -> Forall2 same_def l l' -> Forall2 same_def (filter f l) (filter f l').
Proof. intros Hf. induction 1 as [|d d' l l' H _ IH]; [constructor|]. cbn. rewrite (Hf _ _ H). destruct (f d); [constructor; assumption | exact IH]. Qed.
Lemma perm_filter {A} (f : A -> bool) l l' : Permutation l l' -> Permutation (filter f l) (filter f l').
Proof.
  induction 1 as [|x a b P IH|x y a|a b c _ IH1 _ IH2]; cbn; [constructor| | |etransitivity; eassumption].
  - destruct (f x); [constructor; exact IH | exact IH].
  - destruct (f x), (f y); try constructor; apply Permutation_refl.
Qed.
Lemma same_named n g g' : same_gram g g' -> same_gram (defs_named n g) (defs_named n g').
Proof.
  intros (h & P & F). exists (defs_named n h). split; [apply perm_filter; exact P|]. apply same_filter; [|exact F].
  intros d d' H. unfold is_named. rewrite (sd_name _ _ H). reflexivity.
Qed.
Lemma same_in g g' d : same_gram g g' -> In d g -> exists d', In d' g' /\ same_def d d'.
Proof.
  intros (h & P & F) H. apply (Permutation_in _ P) in H. clear P. induction F as [|x y h g' Hxy _ IH]; [destruct H|].
  destruct H as [->|H]; [exists y; split; [left; reflexivity | exact Hxy]|]. destruct (IH H) as (d' & K1 & K2). exists d'. split; [right; exact K1 | exact K2].
Qed.

Ltac f2 H := let a := fresh "HF1" in let b := fresh "HF0" in inversion H as [|? ? ? ? a b]; subst; clear H.
Section Perm.
Variable fs : filesys.

Lemma overrides_same e e' ov : same_env e e' -> Forall2 same_def (overrides e ov) (overrides e' ov).
Proof.
  intros H. assert (H1 : forall i, Forall2 same_def (overrides1 e i) (overrides1 e' i)).
  { fix IH 1. intros [n h p|l|a].
    - constructor; [|constructor]. constructor; cbn; auto.
    - cbn. induction l as [|x l IHl]; [constructor|]. apply Forall2_app; [apply IH | exact IHl].
    - constructor. }
  induction ov as [|x ov IH]; [constructor|]. cbn. apply Forall2_app; auto.
Qed.
Lemma default_same e e' u : same_env e e' -> default_ns e u -> default_ns e' u.
Proof. intros [A B D] [p l H|H]; [apply (Dn_declared e' p); rewrite B; exact H | rewrite <- D; apply Dn_inherited; rewrite B; exact H]. Qed.
Lemma hands_same e e' inh u : same_env e e' -> hands_down e inh u -> hands_down e' inh u.
Proof. intros H Hd. destruct inh as [i|]; cbn in *; [rewrite (se_decls _ _ H); exact Hd | eapply default_same; eassumption]. Qed.
Lemma External_same e e' h i e1 p : same_env e e' -> External fs e h i e1 p -> External fs e' h i e1 p.
Proof. intros H [f s u Hr Hf Hu]. econstructor; [rewrite <- (se_path _ _ H); exact Hr | exact Hf | eapply hands_same; eassumption]. Qed.
(** one content and its definitions *)
Lemma Expand_same e l ds : Expand fs e l ds -> forall e', same_env e e' -> exists ds', Expand fs e' l ds' /\ Forall2 same_def ds ds'.
Proof.
  induction 1 as [e|e n h p l ds H IH|e l1 l ds1 ds H1 IH1 H IH|e a l ds H IH|e href inh ov l f s c inherited ds inner Hr Hf Hc Hi H1 IH1 os Hos H IH]; intros e' Se.
  - exists []. split; constructor.
  - destruct (IH e' Se) as (ds' & K1 & K2). exists (SDef n h e' p :: ds'). split; [constructor; exact K1|]. constructor; [constructor; auto | exact K2].
  - destruct (IH1 e' Se) as (d1 & K1 & K2). destruct (IH e' Se) as (d2 & K3 & K4). exists (d1 ++ d2). split; [constructor; assumption | apply Forall2_app; assumption].
  - destruct (IH e' Se) as (ds' & K1 & K2). exists ds'. split; [constructor; exact K1 | exact K2].
  - destruct (IH e' Se) as (ds' & K1 & K2). pose proof (overrides_same e e' (match ov with Some l => l | None => [] end) Se) as Ho. fold os in Ho.
    pose proof (same_names _ _ Ho) as En.
    exists (overrides e' (match ov with Some l => l | None => [] end) ++ filter (not_among (names_of os)) inner ++ ds'). split.
    + rewrite <- En. eapply Ex_include with (s := s); [rewrite <- (se_path _ _ Se); exact Hr | exact Hf | exact Hc | | exact H1 | rewrite En; exact Hos | exact K1].
      eapply hands_same; eassumption.
    + apply Forall2_app; [exact Ho|]. apply Forall2_app; [|exact K2]. clear. induction (filter _ inner); constructor; [apply same_def_refl | assumption].
Qed.
Lemma Expand_app e l1 : forall l2 ds, Expand fs e (l1 ++ l2) ds <-> exists d1 d2, Expand fs e l1 d1 /\ Expand fs e l2 d2 /\ ds = d1 ++ d2.
Proof.
  induction l1 as [|g l1 IH]; intros l2 ds; cbn [app].
  - split; [intros H; exists [], ds; split; [constructor | auto] | intros (d1 & d2 & H1 & H2 & ->); inversion H1; subst; exact H2].
  - rewrite SourceCompile.Expand_cons. split.
    + intros (d1 & d2 & H1 & H2 & ->). apply IH in H2. destruct H2 as (d3 & d4 & H3 & H4 & ->). exists (d1 ++ d3), d4. split; [|split; [exact H4 | apply app_assoc]].
      apply SourceCompile.Expand_cons. exists d1, d3. auto.
    + intros (d1 & d2 & H1 & H2 & ->). apply SourceCompile.Expand_cons in H1. destruct H1 as (d3 & d4 & H3 & H4 & ->). exists d3, (d4 ++ d2). split; [exact H3|]. split; [|symmetry; apply app_assoc].
      apply IH. exists d4, d2. auto.
Qed.
Lemma Expand_perm e l l' : Permutation l l' -> forall ds, Expand fs e l ds -> exists ds', Expand fs e l' ds' /\ Permutation ds ds'.
Proof.
  induction 1 as [|x l l' P IH|x y l|l1 l2 l3 _ IH1 _ IH2]; intros ds H.
  - exists ds. split; [exact H | apply Permutation_refl].
  - apply SourceCompile.Expand_cons in H. destruct H as (d1 & d2 & H1 & H2 & ->). destruct (IH _ H2) as (d' & K1 & K2). exists (d1 ++ d'). split; [apply SourceCompile.Expand_cons; exists d1, d'; auto | apply Permutation_app_head; exact K2].
  - apply SourceCompile.Expand_cons in H. destruct H as (d1 & d2 & H1 & H2 & ->). apply SourceCompile.Expand_cons in H2. destruct H2 as (d3 & d4 & H3 & H4 & ->).
    exists (d3 ++ d1 ++ d4). split; [|rewrite !app_assoc; apply Permutation_app_tail, Permutation_app_comm].
    apply SourceCompile.Expand_cons. exists d3, (d1 ++ d4). split; [exact H3|]. split; [|reflexivity]. apply SourceCompile.Expand_cons. exists d1, d4. auto.
  - destruct (IH1 _ H) as (d1 & K1 & K2). destruct (IH2 _ K1) as (d2 & K3 & K4). exists d2. split; [exact K3 | etransitivity; eassumption].
Qed.

Variable O : oracles.
Variable C : coracles.
Variable w3 : bool.
Notation SM := (SM fs O C w3). Notation SW := (SW fs O C w3). Notation SN := (SN fs O C w3). Notation SI := (SI fs O C w3).
Notation SX := (SX fs O C). Notation SXN := (SXN fs O C). Notation SXD := (SXD fs O C).

Lemma in_snc_same e e' el n q : same_env e e' -> in_snc e el n q <-> in_snc e' el n q.
Proof.
  intros H. assert (HD : forall u, default_ns e u <-> default_ns e' u) by (intros u; split; apply default_same; [exact H | apply same_env_sym; exact H]).
  pose proof (se_decls _ _ H) as E. revert n. fix IH 1. intros [[i|p l|u l]|nm ex|ex|a b|a]; cbn [in_snc]; rewrite ?E.
  - pose proof (HD (uri q)). clear IH. destruct el; tauto.
  - reflexivity.
  - reflexivity.
  - destruct ex as [x|]; [rewrite (IH x)|]; reflexivity.
  - destruct ex as [x|]; [rewrite (IH x)|]; reflexivity.
  - rewrite (IH a), (IH b). reflexivity.
  - apply IH.
Qed.
Lemma denotes_same e e' n d : same_env e e' -> denotes_dt e n d -> denotes_dt e' n d.
Proof. intros H [| | |]; constructor. rewrite (se_decls _ _ H). assumption. Qed.

(** reordering the definitions of one name *)
Lemma SI_cons G a m d ds : SI G a m (d :: ds) <-> match ds with [] => SM (d_env d) G a m (d_body d)
  | _ => exists a1 a2 m1 m2, Permutation a (a1 ++ a2) /\ Lang.merge m1 m2 m /\ SM (d_env d) G a1 m1 (d_body d) /\ SI G a2 m2 ds end.
Proof.
  split.
  - intros H. inversion H; subst; [assumption|]. exists a1, a2, m1, m2. auto.
  - destruct ds as [|d' ds]; [intros H; constructor; exact H|]. intros (a1 & a2 & m1 & m2 & H1 & H2 & H3 & H4). econstructor; eassumption.
Qed.
Lemma SM_perm_atts :
  (forall e G a m p, SM e G a m p -> forall a', Permutation a' a -> SM e G a' m p) /\
  (forall e G a m p, SW e G a m p -> forall a', Permutation a' a -> SW e G a' m p) /\
  (forall G a m n, SN G a m n -> forall a', Permutation a' a -> SN G a' m n) /\
  (forall G a m ds, SI G a m ds -> forall a', Permutation a' a -> SI G a' m ds).
Proof.
  apply SM_mutual; intros;
    try (match goal with H : Permutation ?a [] |- _ => apply Permutation_sym, Permutation_nil in H; subst a end);
    try (match goal with H : Permutation ?a [_] |- _ => apply Permutation_sym, Permutation_length_1_inv in H; subst a end);
    try (econstructor; eauto; fail).
  all: try (econstructor; [etransitivity; eassumption | eassumption..]).
Qed.
Lemma SI_perm G ds ds' : Permutation ds ds' -> forall a m, SI G a m ds -> SI G a m ds'.
Proof.
  induction 1 as [|d l l' P IH|d d' l|l1 l2 l3 _ IH1 _ IH2]; intros a m H; [exact H| | |auto].
  - apply SI_cons in H. apply SI_cons. destruct l as [|x l]; [apply Permutation_nil in P; subst l'; exact H|].
    destruct l' as [|x' l']; [apply Permutation_sym, Permutation_nil in P; discriminate|].
    destruct H as (a1 & a2 & m1 & m2 & K1 & K2 & K3 & K4). exists a1, a2, m1, m2. repeat split; auto.
  - apply SI_cons in H. destruct H as (a1 & a2 & m1 & m2 & K1 & K2 & K3 & K4). apply SI_cons in K4. apply SI_cons.
    destruct l as [|x l].
    + exists a2, a1, m2, m1. split; [etransitivity; [exact K1 | apply Permutation_app_comm]|]. split; [apply LangFacts.merge_comm; exact K2|]. split; [exact K4|]. constructor; exact K3.
    + destruct K4 as (a3 & a4 & m3 & m4 & L1 & L2 & L3 & L4).
      apply LangFacts.merge_comm in K2. 
      destruct (SourceTr.merge_assoc' m3 m4 m1 m2 m L2 K2) as (m' & N1 & N2).
      exists a3, (a1 ++ a4), m3, m'. split.
      { etransitivity; [exact K1|]. etransitivity; [apply Permutation_app_head; exact L1|]. rewrite !app_assoc. apply Permutation_app_tail, Permutation_app_comm. }
      split; [exact N2|]. split; [exact L3|]. econstructor; [apply Permutation_refl | apply LangFacts.merge_comm; exact N1 | exact K3 | exact L4].
Qed.
Lemma SXD_cons G d ds s b : SXD G (d :: ds) s b <-> match ds with [] => SX (d_env d) G (d_body d) s b
  | _ => exists b1 b2, b = b1 || b2 /\ SX (d_env d) G (d_body d) s b1 /\ SXD G ds s b2 end.
Proof.
  split.
  - intros H. inversion H; subst; [assumption|]. exists b1, b2. auto.
  - destruct ds as [|d' ds]; [intros H; constructor; exact H|]. intros (b1 & b2 & -> & H1 & H2). constructor; assumption.
Qed.
Lemma SXD_perm G ds ds' : Permutation ds ds' -> forall s b, SXD G ds s b -> SXD G ds' s b.
Proof.
  induction 1 as [|d l l' P IH|d d' l|l1 l2 l3 _ IH1 _ IH2]; intros s b H; [exact H| | |auto].
  - apply SXD_cons in H. apply SXD_cons. destruct l as [|x l]; [apply Permutation_nil in P; subst l'; exact H|].
    destruct l' as [|x' l']; [apply Permutation_sym, Permutation_nil in P; discriminate|].
    destruct H as (b1 & b2 & K1 & K2 & K3). exists b1, b2. auto.
  - apply SXD_cons in H. destruct H as (b1 & b2 & -> & K2 & K3). apply SXD_cons in K3. apply SXD_cons. destruct l as [|x l].
    + exists b2, b1. split; [apply orb_comm|]. split; [exact K3 | constructor; exact K2].
    + destruct K3 as (b3 & b4 & -> & L1 & L2). exists b3, (b1 || b4). split; [destruct b1, b3; reflexivity|]. split; [exact L1 | constructor; assumption].
Qed.

Lemma SX_same :
  (forall e G p s b, SX e G p s b -> forall e' G', same_env e e' -> Forall2 same_gram G G' -> SX e' G' p s b) /\
  (forall G n s b, SXN G n s b -> forall G', Forall2 same_gram G G' -> SXN G' n s b) /\
  (forall G ds s b, SXD G ds s b -> forall G' ds', Forall2 same_def ds ds' -> Forall2 same_gram G G' -> SXD G' ds' s b).
Proof.
  apply SX_mutual; intros;
    try (econstructor; eauto using denotes_same, External_same, same_env_refl; fail).
  - match goal with H : Forall2 _ _ _ |- _ => inversion H; subst end. constructor; auto.
  - match goal with H : Expand _ _ _ _ |- _ => destruct (Expand_same _ _ _ H e' ltac:(assumption)) as (ds' & K1 & K2) end. econstructor; [exact K1|].
    match goal with H : forall _, _ -> SXN _ _ _ _ |- _ => apply H end. constructor; [|assumption]. exists ds. split; [apply Permutation_refl | exact K2].
  - match goal with H : Forall2 _ _ _ |- _ => inversion H; subst end.
    match goal with H : same_gram g ?y |- _ => pose proof (same_named n _ _ H) as Hs end. constructor.
    + intros d Hd. destruct (same_in _ _ _ (same_gram_sym _ _ Hs) Hd) as (d0 & K1 & K2). rewrite <- (sd_how _ _ K2). auto.
    + destruct Hs as (h & P & F). eapply SXD_perm with (ds := defs_named n y); [apply Permutation_refl|].
      apply (Forall2_flip' _ same_def) in F; [|apply same_def_sym].
      destruct (Forall2_perm _ _ _ _ F (Permutation_sym P)) as (k & P' & F').
      eapply SXD_perm; [apply Permutation_sym; exact P'|]. match goal with H : forall _ _, _ -> _ -> SXD _ _ _ _ |- _ => apply H end; [|assumption].
      eapply Forall2_flip'; [|exact F']. apply same_def_sym.
  - f2 H1. f2 HF0. destruct HF1. constructor. rewrite sd_body0. apply H0; assumption.
  - pose proof H3 as H3'. f2 H3. f2 HF0. constructor; [|apply H2; [constructor; assumption | assumption]]. destruct HF1. rewrite sd_body0. apply H0; assumption.
Qed.
Lemma SM_same :
  (forall e G a m p, SM e G a m p -> forall e' G', same_env e e' -> Forall2 same_gram G G' -> SM e' G' a m p) /\
  (forall e G a m p, SW e G a m p -> forall e' G', same_env e e' -> Forall2 same_gram G G' -> SW e' G' a m p) /\
  (forall G a m n, SN G a m n -> forall G', Forall2 same_gram G G' -> SN G' a m n) /\
  (forall G a m ds, SI G a m ds -> forall G' ds', Forall2 same_def ds ds' -> Forall2 same_gram G G' -> SI G' a m ds').
Proof.
  apply SM_mutual; intros;
    try (econstructor; eauto using denotes_same, External_same, same_env_refl; fail).
  - constructor; [eapply in_snc_same; [apply same_env_sym; eassumption | assumption] | auto].
  - constructor; auto. eapply in_snc_same; [apply same_env_sym; eassumption | assumption].
  - eapply SM_except; eauto using denotes_same. eapply (proj1 SX_same); eassumption.
  - match goal with H : Forall2 _ _ _ |- _ => inversion H; subst end. constructor; auto.
  - match goal with H : Expand _ _ _ _ |- _ => destruct (Expand_same _ _ _ H e' ltac:(assumption)) as (ds' & K1 & K2) end. econstructor; [exact K1|].
    match goal with H : forall _, _ -> SN _ _ _ _ |- _ => apply H end. constructor; [|assumption]. exists ds. split; [apply Permutation_refl | exact K2].
  - match goal with H : Forall2 _ _ _ |- _ => inversion H; subst end.
    match goal with H : same_gram g ?y |- _ => pose proof (same_named n _ _ H) as Hs end.
    match goal with H : In d _ |- _ => destruct (same_in _ _ _ Hs H) as (d' & K1 & K2) end. eapply SN_choice; [|exact K1|].
    + intros d0 Hd. destruct (same_in _ _ _ (same_gram_sym _ _ Hs) Hd) as (d1 & L1 & L2). rewrite <- (sd_how _ _ L2). auto.
    + rewrite (sd_body _ _ K2). match goal with H : forall _ _, _ -> _ -> SM _ _ _ _ _ |- _ => apply H end; [apply K2 | assumption].
  - match goal with H : Forall2 _ _ _ |- _ => inversion H; subst end.
    match goal with H : same_gram g ?y |- _ => pose proof (same_named n _ _ H) as Hs end. apply SN_interleave.
    + intros d0 Hd. destruct (same_in _ _ _ (same_gram_sym _ _ Hs) Hd) as (d1 & L1 & L2). rewrite <- (sd_how _ _ L2). auto.
    + destruct Hs as (h & P & F). apply (Forall2_flip' _ same_def) in F; [|apply same_def_sym].
      destruct (Forall2_perm _ _ _ _ F (Permutation_sym P)) as (k & P' & F').
      eapply SI_perm; [apply Permutation_sym; exact P'|]. match goal with H : forall _ _, _ -> _ -> SI _ _ _ _ |- _ => apply H end; [|assumption].
      eapply Forall2_flip'; [|exact F']. apply same_def_sym.
  - f2 H1. f2 HF0. destruct HF1. constructor. rewrite sd_body0. apply H0; assumption.
  - f2 H5. f2 HF0. eapply SI_more; [eassumption | eassumption | |apply H4; [constructor; assumption | assumption]]. destruct HF1. rewrite sd_body0. apply H2; assumption.
Qed.
End Perm.
