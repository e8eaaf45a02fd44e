(** * Scope: the schemas the validation theorems talk about.

    [rng_schema] are RELAX NG's own restrictions (sections 7.1, 7.2, 4.19).
    [limits] are limitations of relaxng-rust: each is needed, see the refutations in Refuted*.v. *)
From Verif Require Import Base Datatype Store Deriv Lang Compile Schema LangA Spec SpecFacts Sound.

(** Datatypes with an implementation: xsd:NMTOKENS, xsd:NMTOKEN and xsd:token are unimplemented
    (xsd.rs:142, 146, 155), and a value of type xsd:QName panics on strings with a colon. *)
Definition supported_dt (d : dt) : Prop :=
  match d with DXsd (XNmTokens _) | DXsd (XNmToken _) | DXsd (XToken _) => False | _ => True end.
Definition supported_value (v : dt_value) : Prop :=
  match v with VXsd (XVQName _) => False | _ => True end.

Section Scope.
Variable defs : list mpat.

Fixpoint limits (X : mpat) : Prop :=
  match X with
  | MChoice l | MInterleave l | MGroup l =>
      (fix go (l : list mpat) : Prop := match l with [] => True | x :: l' => limits x /\ go l' end) l
  | MMixed p | MOptional p | MElement _ p => limits p
  | MZeroOrMore p | MOneOrMore p => limits p /\ more_ok defs p
  | MAttribute _ p | MList p => limits p /\ good defs p
  | MValue v => supported_value v
  | MData d ex => supported_dt d /\ match ex with Some e => limits e /\ EXC defs e | None => True end
  | MRef _ | MEmpty | MText | MNotAllowed => True
  end.

Record rng_schema (start : mpat) : Prop := {
  rs_defs : forall r X, deref defs r = Some X -> restr defs X;
  rs_start : restr defs start;
  rs_root : START defs start
}.
Record in_limits (start : mpat) : Prop := {
  il_defs : forall r X, deref defs r = Some X -> limits X;
  il_start : limits start;
  il_alias : no_alias defs
}.

Lemma list_body_TYP X : list_body defs X -> TYP defs 0 TA X.
Proof.
  induction 1 as [x Hx IHx|x y l Hx IHx Hl IHl|x Hx IHx|x y l Hx IHx Hl IHl| | |p Hp IH|p Hp IH|p Hp IH|v|d e|r X Hb HX IH].
  - apply Ty_ch1; assumption.
  - apply Ty_ch; assumption.
  - apply Ty_gr1; assumption.
  - apply Ty_gr; assumption.
  - apply Ty_empty.
  - apply Ty_na.
  - apply Ty_opt; assumption.
  - apply Ty_zero; assumption.
  - apply Ty_one; assumption.
  - apply Ty_value.
  - apply Ty_data.
  - eapply Ty_ref; [exact Hb | assumption].
Qed.
Lemma TYP_TE t X : TYP defs 1 TE X -> TYP defs 1 t X.
Proof. intros H; eapply Ty_sub; [exact H | apply le_n | exact I]. Qed.
Lemma CT_TYP t X : CT defs t X -> TYP defs 1 t X.
Proof.
  induction 1 as [X HX IH|X HX IH|t x Hx IH|t x y l Hx IHx Hl IHl|t x Hx IH|t x y l Ht Hx IHx Hl IHl|x y l Hx IHx Hl IHl|x y l Hx IHx Hl IHl
    |t x Hx IH|t x y l Ht Hx IHx Hl IHl|x y l Hx IHx Hl IHl|x y l Hx IHx Hl IHl|p Hp IH| | | |t p Hp IH|t p Ht Hp IH|t p Ht Hp IH|nc p Hp IH|nc p|t r X Hb HX IH
    |v|d e|p Hp].
  - apply TYP_TE; exact IH.
  - eapply Ty_sub; [exact IH | apply le_n | exact I].
  - apply Ty_ch1; assumption.
  - apply Ty_ch; assumption.
  - apply Ty_gr1; assumption.
  - apply Ty_gr; assumption.
  - apply Ty_gr; [apply TYP_TE; exact IHx | exact IHl].
  - apply Ty_gr; [exact IHx | apply TYP_TE; exact IHl].
  - apply Ty_in1; assumption.
  - apply Ty_in; assumption.
  - apply Ty_inl; assumption.
  - apply Ty_inr; assumption.
  - apply Ty_mixed; assumption.
  - apply Ty_empty.
  - apply Ty_na.
  - apply Ty_text.
  - apply Ty_opt; assumption.
  - apply Ty_zero; assumption.
  - apply Ty_one; assumption.
  - eapply Ty_attr; exact IH.
  - apply Ty_elem.
  - eapply Ty_ref; [exact Hb | assumption].
  - apply Ty_value.
  - apply Ty_data.
  - apply Ty_list, list_body_TYP; exact Hp.
Qed.

(** [P] holds of every element pattern (name class and content) in [X] *)
Fixpoint all_elems (P : nameclass -> mpat -> Prop) (X : mpat) : Prop :=
  match X with
  | MChoice l | MInterleave l | MGroup l =>
      (fix go (l : list mpat) : Prop := match l with [] => True | x :: l' => all_elems P x /\ go l' end) l
  | MMixed p | MOptional p | MZeroOrMore p | MOneOrMore p | MAttribute _ p | MList p => all_elems P p
  | MElement nc p => P nc p /\ all_elems P p
  | MData _ (Some e) => all_elems P e
  | MRef _ | MData _ None | MValue _ | MEmpty | MText | MNotAllowed => True
  end.
Definition schema_elems (P : nameclass -> mpat -> Prop) (start : mpat) : Prop :=
  all_elems P start /\ forall r X, deref defs r = Some X -> all_elems P X.
(** an element named [q] has no data, value or list in its content, whatever its position *)
Definition no_data (start : mpat) (q : qname) : Prop :=
  schema_elems (fun nc p => in_class nc q -> CT defs TN p) start.

Lemma all_elems_imp (P Q : nameclass -> mpat -> Prop) X : (forall nc p, P nc p -> Q nc p) -> all_elems P X -> all_elems Q X.
Proof.
  intros HPQ.
  assert (HL : forall l, Forall (fun X => all_elems P X -> all_elems Q X) l ->
    (fix go (l : list mpat) : Prop := match l with [] => True | x :: l' => all_elems P x /\ go l' end) l ->
    (fix go (l : list mpat) : Prop := match l with [] => True | x :: l' => all_elems Q x /\ go l' end) l).
  { induction 1 as [|x l Hx Hl IH]; [auto|]. intros [H1 H2]. split; [apply Hx; exact H1 | apply IH; exact H2]. }
  induction X as [l IH|l IH|l IH|p IH| | | |p IH|p IH|p IH|nc p IH|nc p IH|r|v|d ex IH|p IH] using mpat_ind'; cbn; auto; try (apply HL; exact IH).
  - intros [H1 H2]; auto.
  - destruct ex as [e|]; [|auto]. intros H. apply (IH e eq_refl); exact H.
Qed.
Lemma all_elems_true X : all_elems (fun _ _ => True) X.
Proof.
  assert (HL : forall l, Forall (all_elems (fun _ _ => True)) l ->
    (fix go (l : list mpat) : Prop := match l with [] => True | x :: l' => all_elems (fun _ _ => True) x /\ go l' end) l).
  { induction 1 as [|x l Hx Hl IH]; [exact I|]. split; [exact Hx | exact IH]. }
  induction X as [l IH|l IH|l IH|p IH| | | |p IH|p IH|p IH|nc p IH|nc p IH|r|v|d ex IH|p IH] using mpat_ind'; cbn; auto.
  1-3: apply HL; exact IH.
  destruct ex as [e|]; [exact (IH e eq_refl) | exact I].
Qed.
Lemma all_elems_and (P Q : nameclass -> mpat -> Prop) X : all_elems P X -> all_elems Q X -> all_elems (fun nc p => P nc p /\ Q nc p) X.
Proof.
  assert (HL : forall l, Forall (fun X => all_elems P X -> all_elems Q X -> all_elems (fun nc p => P nc p /\ Q nc p) X) l ->
    (fix go (l : list mpat) : Prop := match l with [] => True | x :: l' => all_elems P x /\ go l' end) l ->
    (fix go (l : list mpat) : Prop := match l with [] => True | x :: l' => all_elems Q x /\ go l' end) l ->
    (fix go (l : list mpat) : Prop := match l with [] => True | x :: l' => all_elems (fun nc p => P nc p /\ Q nc p) x /\ go l' end) l).
  { induction 1 as [|x l Hx Hl IH]; [auto|]. intros [H1 H2] [H3 H4]. split; [apply Hx; assumption | apply IH; assumption]. }
  induction X as [l IH|l IH|l IH|p IH| | | |p IH|p IH|p IH|nc p IH|nc p IH|r|v|d ex IH|p IH] using mpat_ind'; cbn; auto; try (apply HL; exact IH).
  - intros [H1 H2] [H3 H4]; auto.
  - destruct ex as [e|]; [|auto]. intros H1 H2. apply (IH e eq_refl); assumption.
Qed.
Lemma restr_elems X : restr defs X -> all_elems (fun _ p => CT defs TA p) X.
Proof.
  assert (HL : forall l, Forall (fun X => restr defs X -> all_elems (fun _ p => CT defs TA p) X) l ->
    (fix go (l : list mpat) : Prop := match l with [] => True | x :: l' => restr defs x /\ go l' end) l ->
    (fix go (l : list mpat) : Prop := match l with [] => True | x :: l' => all_elems (fun _ p => CT defs TA p) x /\ go l' end) l).
  { induction 1 as [|x l Hx Hl IH]; [auto|]. intros [H1 H2]. split; [apply Hx; exact H1 | apply IH; exact H2]. }
  induction X as [l IH|l IH|l IH|p IH| | | |p IH|p IH|p IH|nc p IH|nc p IH|r|v|d ex IH|p IH] using mpat_ind'; cbn; auto; try (intros [_ H]; apply HL; [exact IH | exact H]).
  - intros [H1 H2]; auto.
  - intros [H1 H2]; auto.
  - intros [H1 H2]; auto.
  - destruct ex as [e|]; [|auto]. intros H. apply (IH e eq_refl); exact H.
Qed.

Section Fine.
Variable O : oracles.
Variable T : nameclass -> ctype.
Definition lim (p : panic) : Prop := p = PTooManyPatterns.
Lemma supported_dt_fine d : supported_dt d -> dt_fine O lim d.
Proof. intros H s p E. destruct d as [| |[]]; cbn in *; try discriminate E; contradiction. Qed.
Lemma supported_value_fine v : supported_value v -> value_fine lim v.
Proof. intros H s p E. destruct v as [| |[]]; cbn in *; try discriminate E; contradiction. Qed.

Lemma scope_SOK X : restr defs X -> limits X -> all_elems (fun nc p => CT defs (T nc) p) X -> SOK O lim defs T X.
Proof.
  assert (HL : forall l, Forall (fun X => restr defs X -> limits X -> all_elems (fun nc p => CT defs (T nc) p) X -> SOK O lim defs T X) l ->
    (fix go (l : list mpat) : Prop := match l with [] => True | x :: l' => restr defs x /\ go l' end) l ->
    (fix go (l : list mpat) : Prop := match l with [] => True | x :: l' => limits x /\ go l' end) l ->
    (fix go (l : list mpat) : Prop := match l with [] => True | x :: l' => all_elems (fun nc p => CT defs (T nc) p) x /\ go l' end) l ->
    (fix go (l : list mpat) : Prop := match l with [] => True | x :: l' => SOK O lim defs T x /\ go l' end) l).
  { induction 1 as [|x l Hx Hl IH]; [auto|]. intros [R1 R2] [L1 L2] [E1 E2]. split; [apply Hx; assumption | apply IH; assumption]. }
  induction X as [l IH|l IH|l IH|p IH| | | |p IH|p IH|p IH|nc p IH|nc p IH|r|v|d ex IH|p IH] using mpat_ind'; cbn; intros HR HLi HE; auto.
  - destruct HR as [HR1 HR2]; split; [exact HR1 | apply HL; assumption].
  - destruct HR as [HR1 HR2]; split; [exact HR1 | apply HL; assumption].
  - destruct HR as [HR1 HR2]; split; [exact HR1 | apply HL; assumption].
  - destruct HR, HLi; auto.
  - destruct HR, HLi; auto.
  - destruct HLi; auto.
  - destruct HR as [HR1 HR2]; destruct HE as [HE1 HE2]. split; [auto|]. exists 1. apply CT_TYP; exact HE1.
  - apply supported_value_fine; exact HLi.
  - destruct HLi as [H1 H2]. split; [apply supported_dt_fine; exact H1|]. destruct ex as [e|]; [|exact I]. destruct H2 as [H2 H3]; split; [|exact H3]. apply (IH e eq_refl); assumption.
  - destruct HLi; auto.
Qed.
Theorem scope_ok_T start : rng_schema start -> in_limits start -> schema_elems (fun nc p => CT defs (T nc) p) start -> schema_ok O lim defs T start.
Proof.
  intros [R1 R2 R3] [L1 L2 L3] [E1 E2]. constructor; [|apply scope_SOK; assumption | exact R3 | exact L3].
  intros r X Hb. apply scope_SOK; [eapply R1 | eapply L1 | eapply E2]; exact Hb.
Qed.
End Fine.
Definition any_type (nc : nameclass) : ctype := TA.
Theorem scope_ok O start : rng_schema start -> in_limits start -> schema_ok O lim defs any_type start.
Proof.
  intros HR HL. apply scope_ok_T; [exact HR | exact HL|]. destruct HR as [R1 R2 R3]. split; [apply restr_elems; exact R2|].
  intros r X Hb. apply restr_elems. eapply R1; exact Hb.
Qed.

(** A start pattern has complex content. *)
Lemma START_CT X : START defs X -> CT defs TN X.
Proof.
  induction 1 as [|nc p|x Hx IH|x l Hx IH Hl IHl|r X Hb HX IH].
  - apply CT_EN, CT_na.
  - apply CT_elem.
  - apply CT_ch1; exact IH.
  - destruct l as [|y l]; [apply CT_ch1; exact IH | apply CT_ch; assumption].
  - eapply CT_ref; [exact Hb | exact IH].
Qed.

(** A schema in simple form (4.19: every definition is one element) has no problem with recursion. *)
Definition simple_form : Prop := forall r X, deref defs r = Some X -> exists nc p, X = MElement nc p.
Lemma simple_good X : simple_form -> good defs X.
Proof. intros HS r Y _ _ Hb HN. destruct (HS r Y Hb) as (nc & p & ->). inversion HN. Qed.
Lemma simple_alias : simple_form -> no_alias defs.
Proof. intros HS n m X Hb HA. destruct (HS n X Hb) as (nc & p & ->). inversion HA. Qed.
End Scope.
