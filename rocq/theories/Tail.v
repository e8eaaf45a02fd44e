(** * Tail: what is left once every open element has been closed.

    The validator has no end-of-document check (lib.rs:617-623): a document is accepted when no
    token was rejected.  For a start pattern made of elements and choices the residue after the
    root element is [NotAllowed] or nullable, so "not rejected" does mean "matched". *)
From Verif Require Import Base Datatype Store Deriv Events Lang Wp Doc.
Open Scope monad_scope.

Ltac exts := first [assumption | apply ext_refl |
  match goal with H : ext ?a ?b |- ext ?a ?c => apply (ext_trans a b c H); exts end].

(** [id] is a choice of elements (RELAX NG 7.1.5 restricts start to this form). *)
Inductive SE (st : store) : pid -> Prop :=
| SE_na id : nth_error (pats st) id = Some PNotAllowed -> SE st id
| SE_elem id nc c : nth_error (pats st) id = Some (PElement nc c) -> SE st id
| SE_choice id l r n : nth_error (pats st) id = Some (PChoice l r n) -> SE st l -> SE st r -> SE st id.

(** [id] is [empty] or a choice of such. *)
Inductive Emp (st : store) : pid -> Prop :=
| Emp_empty id : nth_error (pats st) id = Some PEmpty -> Emp st id
| Emp_choice id l r : nth_error (pats st) id = Some (PChoice l r true) -> Emp st l -> Emp st r -> Emp st id.
Lemma Emp_ext st st' id : ext st st' -> Emp st id -> Emp st' id.
Proof. intros E; induction 1; [eapply Emp_empty|eapply Emp_choice]; eauto using ext_nth. Qed.
Lemma Emp_nullable st id p : Emp st id -> nth_error (pats st) id = Some p -> is_nullable p = true.
Proof. destruct 1; intros Hp; rewrite H in Hp; injection Hp as <-; reflexivity. Qed.

(** Shape of the current pattern with [d] open elements. *)
Inductive Shape (st : store) : nat -> pid -> Prop :=
| Sh_na d id : nth_error (pats st) id = Some PNotAllowed -> Shape st d id
| Sh_nul id : Emp st id -> Shape st 0 id
| Sh_choice d id l r n : nth_error (pats st) id = Some (PChoice l r n) -> Shape st (S d) l -> Shape st (S d) r -> Shape st (S d) id
| Sh_after d id p1 p2 : nth_error (pats st) id = Some (PAfter p1 p2) -> Shape st d p2 -> Shape st (S d) id.

Ltac nthx := cbn beta in *; match goal with H : nth_error (pats ?a) ?i = Some _ |- nth_error (pats ?b) ?i = Some _ =>
  eapply (ext_nth a b i); [exts | exact H] end.
Lemma Shape_ext st st' d id : ext st st' -> Shape st d id -> Shape st' d id.
Proof.
  intros E; induction 1; [eapply Sh_na|eapply Sh_nul|eapply Sh_choice|eapply Sh_after]; eauto using ext_nth, Emp_ext.
Qed.
Ltac shx := cbn beta in *; match goal with H : Shape ?a _ ?i |- Shape ?b _ ?i => eapply (Shape_ext a b _ i); [exts | exact H] end.
Lemma SE_ext st st' id : ext st st' -> SE st id -> SE st' id.
Proof. intros E; induction 1; [eapply SE_na|eapply SE_elem|eapply SE_choice]; eauto using ext_nth. Qed.

(** the memo maps patterns to slots holding them (placeholders excepted) *)
Definition memo_ok (st : store) : Prop := forall p id, lookup_pat p (memo st) = Some id ->
  nth_error (pats st) id = Some p \/ is_placeholder p = true.

(** Partial correctness: every normal result extends the store and satisfies [Q]. *)
Definition pc {A} (f : M A) (st : store) (Q : A -> store -> Prop) : Prop :=
  memo_ok st -> forall a st', f st = Ok (a, st') -> ext st st' /\ memo_ok st' /\ Q a st'.
Definition anyQ {A} (_ : A) (_ : store) : Prop := True.

Lemma pc_mono {A} (f : M A) st (Q Q' : A -> store -> Prop) :
  pc f st Q -> (forall a st', ext st st' -> Q a st' -> Q' a st') -> pc f st Q'.
Proof. intros H Hi Hm a st' E; destruct (H Hm a st' E) as (?&?&?); auto. Qed.
Lemma pc_ret {A} (a : A) st (Q : A -> store -> Prop) : Q a st -> pc (ret a) st Q.
Proof. intros H Hm a' st' E; injection E as <- <-; split; [apply ext_refl | auto]. Qed.
Lemma pc_bind {A B} (f : M A) (g : A -> M B) st Q Q' :
  pc f st Q -> (forall a st', ext st st' -> Q a st' -> pc (g a) st' Q') -> pc (bind f g) st Q'.
Proof.
  intros Hf Hg Hm b st2 E. unfold bind in E. destruct (f st) as [[a st1]| |] eqn:Ef; try discriminate.
  destruct (Hf Hm a st1 Ef) as (E1 & Hm1 & Hq). destruct (Hg a st1 E1 Hq Hm1 b st2 E) as (E2 & Hm2 & Hq').
  split; [exts | auto].
Qed.
Lemma pc_fail {A} p st (Q : A -> store -> Prop) : pc (fail p) st Q.
Proof. intros _ a st' E; discriminate E. Qed.
Lemma pc_oof {A} st (Q : A -> store -> Prop) : pc out_of_fuel st Q.
Proof. intros _ a st' E; discriminate E. Qed.
Lemma pc_lift {A} (x : res A) st (Q : A -> store -> Prop) : (forall a, x = Ok a -> Q a st) -> pc (lift x) st Q.
Proof.
  intros H Hm a st' E; unfold lift in E; destruct x; try discriminate E. injection E as <- <-.
  split; [apply ext_refl | split; [exact Hm | apply H; reflexivity]].
Qed.
Lemma pc_patt i st : pc (patt i) st (fun p st' => nth_error (pats st') i = Some p).
Proof.
  intros Hm p st' E; unfold patt in E. destruct (nth_error (pats st) i) eqn:En; [|discriminate]. injection E as <- <-.
  auto using ext_refl.
Qed.
Lemma pc_push p st : is_placeholder p = false -> pc (push p) st (fun i st' => nth_error (pats st') i = Some p).
Proof.
  intros Hp Hm i st' E; unfold push in E. destruct (max_patterns <? _)%N; [discriminate|].
  destruct (lookup_pat p (memo st)) as [j|] eqn:El; injection E as <- <-.
  - split; [apply ext_refl|]. split; [exact Hm|]. destruct (Hm p j El) as [H|H]; [exact H | congruence].
  - assert (Hx : ext st (Store (pats st ++ [p]) ((p, length (pats st)) :: memo st) (refs st))) by (exists [p]; reflexivity).
    assert (Hn : nth_error (pats st ++ [p]) (length (pats st)) = Some p) by (rewrite nth_error_app2, Nat.sub_diag by lia; reflexivity).
    split; [exact Hx|]. split; [|exact Hn].
    intros q id Hl. cbn in Hl. destruct (pat_eq_dec p q) as [->|Hne]; [injection Hl as <-; left; exact Hn|].
    destruct (Hm q id Hl) as [H|H]; [left; nthx | right; exact H].
Qed.

Ltac pcb H := eapply pc_bind; [apply H|].
Lemma pc_any {A} (f : M A) st Q : pc f st Q -> pc f st anyQ.
Proof. intros H; eapply pc_mono; [exact H|]; intros; exact I. Qed.

Lemma pc_na st : pc not_allowed st (fun i st' => nth_error (pats st') i = Some PNotAllowed).
Proof. apply pc_push; reflexivity. Qed.
Lemma pc_empty st : pc empty st (fun i st' => nth_error (pats st') i = Some PEmpty).
Proof. apply pc_push; reflexivity. Qed.
Lemma pc_choice_any l r st : pc (choice l r) st anyQ.
Proof.
  unfold choice. pcb pc_patt; intros x st1 E1 Hx. pcb pc_patt; intros y st2 E2 Hy.
  destruct (is_not_allowed x); [apply pc_ret; exact I|]. destruct (is_not_allowed y); [apply pc_ret; exact I|].
  destruct (Nat.eqb l r); [apply pc_ret; exact I|]. eapply pc_any, pc_push; reflexivity.
Qed.
Lemma pc_group_any l r st : pc (group l r) st anyQ.
Proof.
  unfold group. pcb pc_patt; intros x st1 E1 Hx. pcb pc_patt; intros y st2 E2 Hy.
  destruct (is_not_allowed x); [eapply pc_any, pc_na|]. destruct (is_not_allowed y); [eapply pc_any, pc_na|].
  destruct (is_empty x); [apply pc_ret; exact I|]. destruct (is_empty y); [apply pc_ret; exact I|]. eapply pc_any, pc_push; reflexivity.
Qed.
Lemma pc_inter_any l r st : pc (interleave l r) st anyQ.
Proof.
  unfold interleave. pcb pc_patt; intros x st1 E1 Hx. pcb pc_patt; intros y st2 E2 Hy.
  destruct (is_not_allowed x); [eapply pc_any, pc_na|]. destruct (is_not_allowed y); [eapply pc_any, pc_na|].
  destruct (is_empty x); [apply pc_ret; exact I|]. destruct (is_empty y); [apply pc_ret; exact I|]. eapply pc_any, pc_push; reflexivity.
Qed.
Lemma pc_more_any p st : pc (one_or_more p) st anyQ.
Proof. unfold one_or_more. pcb pc_patt; intros x st1 E1 Hx. eapply pc_any, pc_push; reflexivity. Qed.

Lemma pc_choice d l r st : Shape st d l -> Shape st d r -> pc (choice l r) st (fun i st' => Shape st' d i).
Proof.
  intros Hl Hr. unfold choice. pcb pc_patt; intros x st1 E1 Hx. pcb pc_patt; intros y st2 E2 Hy.
  apply (Shape_ext _ _ _ _ E1) in Hl, Hr. apply (Shape_ext _ _ _ _ E2) in Hl, Hr. apply (ext_nth _ _ _ _ E2) in Hx.
  destruct (is_not_allowed x) eqn:Ex; [apply pc_ret; exact Hr|].
  destruct (is_not_allowed y) eqn:Ey; [apply pc_ret; exact Hl|].
  destruct (Nat.eqb l r); [apply pc_ret; exact Hl|].
  eapply pc_mono; [apply pc_push; reflexivity|]. intros i st' E Hi.
  destruct d as [|d].
  - inversion Hl as [d0 i0 H|i0 HE|d0 i0 ? ? ? H|d0 i0 ? ? H]; subst; [rewrite Hx in H; injection H as ->; discriminate Ex|].
    inversion Hr as [d0 i0 H|i0 HE'|d0 i0 ? ? ? H|d0 i0 ? ? H]; subst; [rewrite Hy in H; injection H as ->; discriminate Ey|].
    eapply Sh_nul. rewrite (Emp_nullable _ _ _ HE Hx) in Hi. eapply Emp_choice; [exact Hi | eapply Emp_ext; eassumption | eapply Emp_ext; eassumption].
  - eapply Sh_choice; [exact Hi | shx | shx].
Qed.
Lemma pc_after d p1 p2 st : Shape st d p2 -> pc (after p1 p2) st (fun i st' => Shape st' (S d) i).
Proof.
  intros H2. unfold after. pcb pc_patt; intros x st1 E1 Hx. apply (Shape_ext _ _ _ _ E1) in H2.
  destruct (is_not_allowed x); [eapply pc_mono; [apply pc_na|]; intros i st' E Hi; apply Sh_na; exact Hi|].
  eapply pc_mono; [apply pc_push; reflexivity|]. intros i st' E Hi. eapply Sh_after; [exact Hi | shx].
Qed.
Lemma pc_after_any p1 p2 st : pc (after p1 p2) st anyQ.
Proof.
  unfold after. pcb pc_patt; intros x st1 E1 Hx.
  destruct (is_not_allowed x); [eapply pc_any, pc_na|]. eapply pc_any, pc_push; reflexivity.
Qed.

Section O.
Variable O : oracles.

Ltac any_step :=
  first [ apply pc_ret; exact I | apply pc_oof | apply pc_fail | apply pc_choice_any | apply pc_group_any | apply pc_inter_any
        | apply pc_more_any | apply pc_after_any | (eapply pc_any, pc_na) | (eapply pc_any, pc_empty)
        | (eapply pc_any, pc_patt) | (eapply pc_any, pc_push; reflexivity) | (eapply pc_lift; intros; exact I) | assumption ].
Ltac any_bind := eapply pc_bind; [any_step | intros ? ? ? ?].

Lemma pc_list_loop (td : pat -> str -> M pid) items : (forall p s st, pc (td p s) st anyQ) ->
  forall p st, pc (list_loop td p items) st anyQ.
Proof.
  intros Htd; induction items as [|x xs IH]; intros p st; cbn [list_loop]; [any_step|].
  any_bind. eapply pc_bind; [apply Htd|]; intros ? ? ? ?. any_bind.
  destruct (is_not_allowed _); [any_step | apply IH].
Qed.
Lemma pc_text_any fuel : forall p s st, pc (text_deriv O fuel p s) st anyQ.
Proof.
  induction fuel as [|fuel IH]; intros p s st; [apply pc_oof|].
  destruct p; cbn [text_deriv]; repeat (first [any_step | any_bind | eapply pc_bind; [apply IH | intros ? ? ? ?] ]);
    try (destruct (is_nullable _); repeat (first [any_step | any_bind | eapply pc_bind; [apply IH | intros ? ? ? ?] ]); fail).
  - destruct (is_whitespace_str s); any_step.
  - destruct (is_whitespace_str s); any_step.
  - destruct a; any_step.
  - destruct a; any_step.
  - destruct (_ && _); any_step.
  - eapply pc_bind; [apply pc_list_loop; intros; apply IH|]. intros [q|q] st1 E1 _; [any_step|].
    any_bind. destruct (is_empty _); [any_step|]. destruct (is_nullable _); [|any_step]. any_bind. any_bind. any_step.
Qed.
Lemma pc_value_match fuel p s st : pc (value_match O fuel p s) st anyQ.
Proof.
  unfold value_match. destruct (_ && _); [any_step|]. eapply pc_bind; [apply pc_text_any|]; intros ? ? ? ?. any_bind. any_step.
Qed.

(** Results of an action on the tails keep the shape. *)
Lemma pc_apply_after d fuel (f : pid -> M pid) :
  (forall q st, pc (f q) st (fun i st' => Shape st' d i)) ->
  forall p st, pc (apply_after fuel p f) st (fun i st' => Shape st' (S d) i).
Proof.
  intros Hf; induction fuel as [|fuel IH]; intros p st; [apply pc_oof|].
  destruct p; cbn [apply_after]; try apply pc_fail.
  - pcb pc_patt; intros ? st1 E1 _. pcb pc_patt; intros ? st2 E2 _.
    eapply pc_bind; [apply IH|]; intros c1 st3 E3 H1. eapply pc_bind; [apply IH|]; intros c2 st4 E4 H2.
    apply pc_choice; [shx | exact H2].
  - eapply pc_mono; [apply pc_na|]; intros; apply Sh_na; assumption.
  - eapply pc_bind; [apply Hf|]; intros q st1 E1 H1. apply pc_after; exact H1.
Qed.
Lemma pc_apply_after_any fuel (f : pid -> M pid) :
  (forall q st, pc (f q) st anyQ) -> forall p st, pc (apply_after fuel p f) st anyQ.
Proof.
  intros Hf; induction fuel as [|fuel IH]; intros p st; [apply pc_oof|].
  destruct p; cbn [apply_after]; try apply pc_fail; try any_step.
  - any_bind. any_bind. eapply pc_bind; [apply IH|]; intros ? ? ? ?. eapply pc_bind; [apply IH|]; intros ? ? ? ?. any_step.
  - eapply pc_bind; [apply Hf|]; intros ? ? ? ?. any_step.
Qed.
Lemma pc_open_any fuel : forall p nm st, pc (start_tag_open_deriv fuel p nm) st anyQ.
Proof.
  induction fuel as [|fuel IH]; intros p nm st; [apply pc_oof|].
  destruct p; cbn [start_tag_open_deriv]; try any_step;
    repeat (first [any_step | any_bind | eapply pc_bind; [apply IH | intros ? ? ? ?]
      | eapply pc_bind; [apply pc_apply_after_any; intros; repeat (first [any_step | any_bind]) | intros ? ? ? ?]
      | apply pc_apply_after_any; intros; repeat (first [any_step | any_bind]) ]).
  - destruct (is_nullable _); [|any_step]. any_bind. eapply pc_bind; [apply IH|]; intros ? ? ? ?. any_step.
  - destruct (contains _ _); [any_bind|]; any_step.
Qed.

(** ** start tag, one level down *)
Lemma pc_open_SE fuel : forall id p nm st, nth_error (pats st) id = Some p -> SE st id ->
  pc (start_tag_open_deriv fuel p nm) st (fun i st' => Shape st' 1 i).
Proof.
  induction fuel as [|fuel IH]; intros id p nm st Hp HS; [apply pc_oof|].
  inversion HS as [id0 Hn|id0 nc c Hn|id0 l r n Hn Hl Hr]; subst; rewrite Hn in Hp; injection Hp as <-; cbn [start_tag_open_deriv].
  - eapply pc_mono; [apply pc_na|]; intros; apply Sh_na; assumption.
  - destruct (contains nc nm).
    + pcb pc_empty; intros e st1 E1 He. apply pc_after. apply Sh_nul, Emp_empty; exact He.
    + eapply pc_mono; [apply pc_na|]; intros; apply Sh_na; assumption.
  - pcb pc_patt; intros x1 st1 E1 H1. pcb pc_patt; intros x2 st2 E2 H2.
    pose proof (ext_trans _ _ _ E1 E2) as E12.
    eapply pc_bind; [eapply (IH l); [eapply ext_nth; [exact E2 | exact H1] | eapply SE_ext; [exact E12 | exact Hl]]|]. intros d1 st3 E3 Hd1.
    eapply pc_bind; [eapply (IH r); [eapply ext_nth; [exact E3 | exact H2] | eapply SE_ext; [eapply ext_trans; [exact E12 | exact E3] | exact Hr]]|]. intros d2 st4 E4 Hd2.
    apply pc_choice; [shx | exact Hd2].
Qed.
Lemma pc_apply_after2 d p2 fuel : forall xd st, Shape st d p2 ->
  pc (apply_after fuel xd (fun q => after q p2)) st (fun i st' => Shape st' (S (S d)) i).
Proof.
  induction fuel as [|fuel IHa]; intros xd st3 H2; [apply pc_oof|].
  destruct xd; cbn [apply_after]; try apply pc_fail.
  - pcb pc_patt; intros ? st4 E4 _. pcb pc_patt; intros ? st5 E5 _.
    eapply pc_bind; [apply IHa; eapply Shape_ext; [|exact H2]; exts|]; intros c1 st6 E6 H1.
    eapply pc_bind; [apply IHa; eapply Shape_ext; [|exact H2]; exts|]; intros c2 st7 E7 H3.
    apply pc_choice; [shx | exact H3].
  - eapply pc_mono; [apply pc_na|]; intros; apply Sh_na; assumption.
  - eapply pc_bind; [apply pc_after; exact H2|]; intros q st4 E4 H1. apply pc_after; exact H1.
Qed.
Lemma pc_open fuel d : forall id p nm st, nth_error (pats st) id = Some p -> Shape st (S d) id ->
  pc (start_tag_open_deriv fuel p nm) st (fun i st' => Shape st' (S (S d)) i).
Proof.
  induction fuel as [|fuel IH]; intros id p nm st Hp HS; [apply pc_oof|].
  inversion HS as [d0 id0 Hn| |d0 id0 l r n Hn Hl Hr|d0 id0 p1 p2 Hn H2]; subst; rewrite Hn in Hp; injection Hp as <-; cbn [start_tag_open_deriv].
  - eapply pc_mono; [apply pc_na|]; intros; apply Sh_na; assumption.
  - pcb pc_patt; intros x1 st1 E1 H1. pcb pc_patt; intros x2 st2 E2 H2.
    pose proof (ext_trans _ _ _ E1 E2) as E12.
    eapply pc_bind; [eapply (IH l); [eapply ext_nth; [exact E2 | exact H1] | eapply Shape_ext; [exact E12 | exact Hl]]|]. intros d1 st3 E3 Hd1.
    eapply pc_bind; [eapply (IH r); [eapply ext_nth; [exact E3 | exact H2] | eapply Shape_ext; [eapply ext_trans; [exact E12 | exact E3] | exact Hr]]|]. intros d2 st4 E4 Hd2.
    apply pc_choice; [shx | exact Hd2].
  - pcb pc_patt; intros x1 st1 E1 _. eapply pc_bind; [apply pc_open_any|]; intros dd st2 E2 _. pcb pc_patt; intros xd st3 E3 _.
    apply pc_apply_after2. eapply Shape_ext; [|exact H2]. eapply ext_trans; [exact E1|]. eapply ext_trans; eassumption.
Qed.

Lemma pc_close_any fuel : forall p st, pc (start_tag_close_deriv fuel p) st anyQ.
Proof.
  induction fuel as [|fuel IH]; intros p st; [apply pc_oof|]. cbn [start_tag_close_deriv]. any_bind.
  destruct a; repeat (first [any_step | any_bind | eapply pc_bind; [apply IH | intros ? ? ? ?] ]).
Qed.
Lemma pc_close fuel d : forall p st, Shape st (S d) p -> pc (start_tag_close_deriv fuel p) st (fun i st' => Shape st' (S d) i).
Proof.
  induction fuel as [|fuel IH]; intros p st HS; [apply pc_oof|]. cbn [start_tag_close_deriv].
  pcb pc_patt; intros x st1 E1 Hx. apply (Shape_ext _ _ _ _ E1) in HS.
  inversion HS as [d0 id0 Hn| |d0 id0 l r n Hn Hl Hr|d0 id0 p1 p2 Hn H2]; subst; cbn beta in Hx; rewrite Hn in Hx; injection Hx as <-.
  - apply pc_ret; exact HS.
  - eapply pc_bind; [apply IH; exact Hl|]; intros c1 st2 E2 H1.
    eapply pc_bind; [apply IH; eapply Shape_ext; [exact E2 | exact Hr]|]; intros c2 st3 E3 H2.
    apply pc_choice; [shx | exact H2].
  - eapply pc_bind; [apply pc_close_any|]; intros a1 st2 E2 _. apply pc_after. shx.
Qed.
Lemma pc_text fuel d : forall id p s st, nth_error (pats st) id = Some p -> Shape st (S d) id ->
  pc (text_deriv O fuel p s) st (fun i st' => Shape st' (S d) i).
Proof.
  induction fuel as [|fuel IH]; intros id p nm st Hp HS; [apply pc_oof|].
  inversion HS as [d0 id0 Hn| |d0 id0 l r n Hn Hl Hr|d0 id0 p1 p2 Hn H2]; subst; rewrite Hn in Hp; injection Hp as <-; cbn [text_deriv].
  - eapply pc_mono; [apply pc_na|]; intros; apply Sh_na; assumption.
  - pcb pc_patt; intros x1 st1 E1 H1. pcb pc_patt; intros x2 st2 E2 H2.
    pose proof (ext_trans _ _ _ E1 E2) as E12.
    eapply pc_bind; [eapply (IH l); [eapply ext_nth; [exact E2 | exact H1] | eapply Shape_ext; [exact E12 | exact Hl]]|]. intros d1 st3 E3 Hd1.
    eapply pc_bind; [eapply (IH r); [eapply ext_nth; [exact E3 | exact H2] | eapply Shape_ext; [eapply ext_trans; [exact E12 | exact E3] | exact Hr]]|]. intros d2 st4 E4 Hd2.
    apply pc_choice; [shx | exact Hd2].
  - pcb pc_patt; intros x1 st1 E1 _. eapply pc_bind; [apply pc_text_any|]; intros dd st2 E2 _.
    apply pc_after. eapply Shape_ext; [|exact H2]; exts.
Qed.
Lemma pc_end fuel d : forall id p st, nth_error (pats st) id = Some p -> Shape st (S d) id ->
  pc (end_tag_deriv fuel p) st (fun i st' => Shape st' d i).
Proof.
  induction fuel as [|fuel IH]; intros id p st Hp HS; [apply pc_oof|].
  inversion HS as [d0 id0 Hn| |d0 id0 l r n Hn Hl Hr|d0 id0 p1 p2 Hn H2]; subst; rewrite Hn in Hp; injection Hp as <-; cbn [end_tag_deriv].
  - eapply pc_mono; [apply pc_na|]; intros; apply Sh_na; assumption.
  - pcb pc_patt; intros x1 st1 E1 H1. pcb pc_patt; intros x2 st2 E2 H2.
    pose proof (ext_trans _ _ _ E1 E2) as E12.
    eapply pc_bind; [eapply (IH l); [eapply ext_nth; [exact E2 | exact H1] | eapply Shape_ext; [exact E12 | exact Hl]]|]. intros d1 st3 E3 Hd1.
    eapply pc_bind; [eapply (IH r); [eapply ext_nth; [exact E3 | exact H2] | eapply Shape_ext; [eapply ext_trans; [exact E12 | exact E3] | exact Hr]]|]. intros d2 st4 E4 Hd2.
    apply pc_choice; [shx | exact Hd2].
  - pcb pc_patt; intros x1 st1 E1 _. destruct (is_nullable x1).
    + apply pc_ret. shx.
    + eapply pc_mono; [apply pc_na|]; intros; apply Sh_na; assumption.
Qed.

(** att_deriv with its memo: statements about all future stores. *)
Definition keeps (st : store) (p v : pid) : Prop :=
  forall st'' d, ext st st'' -> Shape st'' (S d) p -> Shape st'' (S d) v.
Definition mm_keeps (st : store) (mm : list (nat * pid)) : Prop := forall p v, lookup_nat p mm = Some v -> keeps st p v.
Lemma keeps_ext st st' p v : ext st st' -> keeps st p v -> keeps st' p v.
Proof. intros E H st'' d E'' HS. apply H; [exts | exact HS]. Qed.
Lemma mm_keeps_ext st st' mm : ext st st' -> mm_keeps st mm -> mm_keeps st' mm.
Proof. intros E H p v Hl. eapply keeps_ext; [exact E | apply H; exact Hl]. Qed.
Lemma pc_choice_keeps l r st : pc (choice l r) st (fun i st' =>
  forall st'' d, ext st' st'' -> Shape st'' (S d) l -> Shape st'' (S d) r -> Shape st'' (S d) i).
Proof.
  unfold choice. pcb pc_patt; intros x st1 E1 Hx. pcb pc_patt; intros y st2 E2 Hy.
  destruct (is_not_allowed x); [apply pc_ret; auto|]. destruct (is_not_allowed y); [apply pc_ret; auto|].
  destruct (Nat.eqb l r); [apply pc_ret; auto|].
  eapply pc_mono; [apply pc_push; reflexivity|]. intros i st' E Hi st'' d E'' Hl Hr.
  eapply Sh_choice; [nthx | exact Hl | exact Hr].
Qed.
Lemma pc_after_keeps p1 p2 st : pc (after p1 p2) st (fun i st' =>
  forall st'' d, ext st' st'' -> Shape st'' d p2 -> Shape st'' (S d) i).
Proof.
  unfold after. pcb pc_patt; intros x st1 E1 Hx.
  destruct (is_not_allowed x).
  - eapply pc_mono; [apply pc_na|]; intros i st' E Hi st'' d E'' _. apply Sh_na. nthx.
  - eapply pc_mono; [apply pc_push; reflexivity|]. intros i st' E Hi st'' d E'' H2.
    eapply Sh_after; [nthx | exact H2].
Qed.
Lemma keeps_other st p v x : nth_error (pats st) p = Some x ->
  (match x with PChoice _ _ _ | PAfter _ _ | PNotAllowed => False | _ => True end) -> keeps st p v.
Proof.
  intros Hx Hs st'' d E HS. pose proof (ext_nth _ _ _ _ E Hx) as Hx''.
  inversion HS; subst; rewrite Hx'' in *;
    match goal with HH : Some _ = Some _ |- _ => injection HH as ->; contradiction end.
Qed.
Ltac att_other Hx HM :=
  let v := fresh in let mm := fresh in let E := fresh in
  match type of Hx with nth_error _ _ = Some _ =>
    eapply pc_mono with (Q := fun r st' => mm_keeps st' (snd r)); [|
      intros [v mm] ? E ?; cbn [fst snd] in *; split; [eapply keeps_other; [eapply ext_nth; [exact E | exact Hx] | exact I] | assumption]] end.
Ltac mmk := match goal with H : mm_keeps ?a ?m |- mm_keeps ?b ?m => apply (mm_keeps_ext a b m); [exts | exact H] end.

Lemma pc_att fuel : forall mm p x st, mm_keeps st mm ->
  pc (att_deriv O fuel mm p x) st (fun r st' => keeps st' p (fst r) /\ mm_keeps st' (snd r)).
Proof.
  induction fuel as [|fuel IH]; intros mm p x st HM; [apply pc_oof|]. cbn [att_deriv].
  destruct (lookup_nat p mm) as [r|] eqn:El; [apply pc_ret; split; [apply HM; exact El | exact HM]|].
  pcb pc_patt; intros y st0 E0 Hy. apply (mm_keeps_ext _ _ _ E0) in HM.
  eapply pc_bind with (Q := fun r st' => keeps st' p (fst r) /\ mm_keeps st' (snd r)).
  2: { intros [v mm'] st' E [Hk HM']; cbn [fst snd] in *. apply pc_ret; split; [exact Hk|]. intros q u Hl.
       cbn in Hl. destruct (Nat.eq_dec p q) as [->|Hne]; [injection Hl as <-; exact Hk | apply HM'; exact Hl]. }
  destruct y as [l r n|l r n|l r n|q n| | | |nc q|nc q|dd|dv|dd q|q|rr|p1 p2].
  - (* choice *)
    eapply pc_bind; [apply IH; exact HM|]. intros [c1 mm1] st1 E1 [K1 M1]; cbn [fst snd] in *.
    eapply pc_bind; [apply IH; exact M1|]. intros [c2 mm2] st2 E2 [K2 M2]; cbn [fst snd] in *.
    eapply pc_bind; [apply pc_choice_keeps|]. intros v st3 E3 Hv. apply pc_ret; cbn [fst snd]. split; [|mmk].
    intros st'' d E'' HS.
    assert (Hp : nth_error (pats st'') p = Some (PChoice l r n)) by (eapply ext_nth; [|exact Hy]; exts).
    inversion HS as [d0 id0 Hn| |d0 id0 l' r' n' Hn Hl Hr|d0 id0 p1 p2 Hn H2]; subst; rewrite Hp in Hn; try discriminate Hn.
    injection Hn as <- <- <-. apply Hv; [exact E'' | apply K1; [|exact Hl] | apply K2; [|exact Hr]]; exts.
  - att_other Hy HM.
    eapply pc_bind; [apply IH; exact HM|]. intros [c1 mm1] st1 E1 [K1 M1]; cbn [fst snd] in *.
    eapply pc_bind; [apply pc_inter_any|]. intros v1 st2 E2 _. apply (mm_keeps_ext _ _ _ E2) in M1.
    eapply pc_bind; [apply IH; exact M1|]. intros [c2 mm2] st3 E3 [K2 M2]; cbn [fst snd] in *.
    eapply pc_bind; [apply pc_inter_any|]. intros v2 st4 E4 _.
    eapply pc_bind; [apply pc_choice_any|]. intros v3 st5 E5 _. apply pc_ret; cbn [fst snd]. mmk.
  - att_other Hy HM.
    eapply pc_bind; [apply IH; exact HM|]. intros [c1 mm1] st1 E1 [K1 M1]; cbn [fst snd] in *.
    eapply pc_bind; [apply pc_group_any|]. intros v1 st2 E2 _. apply (mm_keeps_ext _ _ _ E2) in M1.
    eapply pc_bind; [apply IH; exact M1|]. intros [c2 mm2] st3 E3 [K2 M2]; cbn [fst snd] in *.
    eapply pc_bind; [apply pc_group_any|]. intros v2 st4 E4 _.
    eapply pc_bind; [apply pc_choice_any|]. intros v3 st5 E5 _. apply pc_ret; cbn [fst snd]. mmk.
  - att_other Hy HM.
    eapply pc_bind; [apply IH; exact HM|]. intros [c1 mm1] st1 E1 [K1 M1]; cbn [fst snd] in *.
    eapply pc_bind; [apply pc_empty|]. intros v1 st2 E2 _.
    eapply pc_bind; [apply pc_choice_any|]. intros v2 st3 E3 _.
    eapply pc_bind; [apply pc_group_any|]. intros v3 st4 E4 _. apply pc_ret; cbn [fst snd]. mmk.
  - att_other Hy HM. pcb pc_na; intros v st1 E1 _. apply pc_ret; cbn [fst snd]; mmk.
  - att_other Hy HM. pcb pc_na; intros v st1 E1 _. apply pc_ret; cbn [fst snd]; mmk.
  - pcb pc_na; intros v st1 E1 Hv. apply pc_ret; cbn [fst snd]. split; [|mmk].
    intros st'' d E'' _. apply Sh_na. nthx.
  - att_other Hy HM. pcb pc_patt; intros z st1 E1 _. destruct (contains nc (a_name x)).
    + eapply pc_bind; [apply pc_value_match|]; intros b st2 E2 _.
      eapply pc_bind with (Q := anyQ); [destruct b; [eapply pc_any, pc_empty | eapply pc_any, pc_na]|]; intros v st3 E3 _. apply pc_ret; cbn [fst snd]; mmk.
    + pcb pc_na; intros v st2 E2 _. apply pc_ret; cbn [fst snd]; mmk.
  - att_other Hy HM. pcb pc_na; intros v st1 E1 _. apply pc_ret; cbn [fst snd]; mmk.
  - att_other Hy HM. pcb pc_na; intros v st1 E1 _. apply pc_ret; cbn [fst snd]; mmk.
  - att_other Hy HM. pcb pc_na; intros v st1 E1 _. apply pc_ret; cbn [fst snd]; mmk.
  - att_other Hy HM. pcb pc_na; intros v st1 E1 _. apply pc_ret; cbn [fst snd]; mmk.
  - att_other Hy HM. pcb pc_na; intros v st1 E1 _. apply pc_ret; cbn [fst snd]; mmk.
  - att_other Hy HM. pcb pc_na; intros v st1 E1 _. apply pc_ret; cbn [fst snd]; mmk.
  - (* after *)
    eapply pc_bind; [apply IH; exact HM|]. intros [c1 mm1] st1 E1 [K1 M1]; cbn [fst snd] in *.
    eapply pc_bind; [apply pc_after_keeps|]. intros v st3 E3 Hv. apply pc_ret; cbn [fst snd]. split; [|mmk].
    intros st'' d E'' HS.
    assert (Hp : nth_error (pats st'') p = Some (PAfter p1 p2)) by (eapply ext_nth; [|exact Hy]; exts).
    inversion HS as [d0 id0 Hn| |d0 id0 l' r' n' Hn Hl Hr|d0 id0 p1' p2' Hn H2]; subst; rewrite Hp in Hn; try discriminate Hn.
    injection Hn as <- <-. apply Hv; [exact E'' | exact H2].
Qed.
Lemma pc_atts fuel atts : forall p st d, Shape st (S d) p ->
  pc (atts_deriv O fuel p atts) st (fun r st' => match r with inl i => Shape st' (S d) i | inr _ => True end).
Proof.
  induction atts as [|x atts IH]; intros p st d HS; cbn [atts_deriv]; [apply pc_ret; exact HS|].
  eapply pc_bind; [apply pc_att; intros ? ? HH; discriminate HH|]. intros [v mm] st1 E1 [Hk _]; cbn [fst snd] in *.
  pcb pc_patt; intros y st2 E2 Hy. destruct (is_not_allowed y); [apply pc_ret; exact I|].
  apply IH. apply Hk; [exact E2|]. eapply Shape_ext; [|exact HS]. eapply ext_trans; eassumption.
Qed.

(** ** The validator *)
Definition opens (st : store) (d : nat) (id : pid) : Prop :=
  match d with 0 => SE st id | S _ => Shape st d id end.
Lemma opens_ext st st' d id : ext st st' -> opens st d id -> opens st' d id.
Proof. destruct d; [apply SE_ext | apply Shape_ext]. Qed.
Ltac opx := cbn beta in *; match goal with H : opens ?a _ ?i |- opens ?b _ ?i => eapply (opens_ext a b _ i); [exts | exact H] end.
Lemma pc_start fuel stk evt id p st d : nth_error (pats st) id = Some p -> opens st d id ->
  pc (close_element_start O fuel stk evt p) st (fun r st' => match r with inl i => Shape st' (S d) i | inr _ => True end).
Proof.
  intros Hp HS. unfold close_element_start.
  eapply pc_bind with (Q := fun _ st' => st' = st); [apply pc_lift; reflexivity|]. intros [nm|e] st0 E0 ->; [|apply pc_ret; exact I].
  eapply pc_bind with (Q := fun i st' => Shape st' (S d) i).
  { destruct d; [eapply pc_open_SE | eapply pc_open]; eassumption. }
  intros i st1 E1 Hi. pcb pc_patt; intros x st2 E2 _. destruct (is_not_allowed x); [apply pc_ret; exact I|].
  eapply pc_bind with (Q := fun _ st' => st' = st2); [apply pc_lift; reflexivity|]. intros [atts|e] st3 E3 ->; [|apply pc_ret; exact I].
  eapply pc_bind; [apply pc_atts; shx|]. intros [q|e] st4 E4 Hq; [|apply pc_ret; exact I].
  pcb pc_patt; intros y st5 E5 _. destruct (is_not_allowed y); [apply pc_ret; exact I|].
  eapply pc_bind; [apply pc_close; shx|]. intros c st6 E6 Hc.
  pcb pc_patt; intros z st7 E7 _. destruct (is_not_allowed z); apply pc_ret; [exact I | shx].
Qed.
Lemma pc_end_element fuel id p st d : nth_error (pats st) id = Some p -> Shape st (S d) id ->
  pc (end_element O fuel false p) st (fun i st' => Shape st' d i).
Proof.
  intros Hp HS. unfold end_element. eapply pc_bind with (Q := fun q st' => q = p /\ st' = st); [apply pc_ret; auto|].
  intros q st0 E0 [-> ->]. eapply pc_end; eassumption.
Qed.

(** one successful token *)
Definition vext (v v' : validator) : Prop := ext (v_store v) (v_store v') /\ memo_ok (v_store v').
Lemma validate_pc fuel v tk v' (Q : pid -> store -> Prop) : memo_ok (v_store v) ->
  (match tk with TElementEnd _ | TText _ _ | TCdata _ => True | _ => False end) ->
  pc (validate_step O fuel v tk) (v_store v) (fun r st' => match r with inl (Some i) => Q i st' | inl None => False | inr _ => True end) ->
  validate O fuel v tk = Ok (v', None) -> vext v v' /\ Q (v_cur v') (v_store v') /\ v_last v' = false /\ nth_error (pats (v_store v')) (v_cur v') <> Some PNotAllowed.
Proof.
  intros Hm Ht Hpc E. unfold validate in E.
  destruct (validate_step O fuel v tk (v_store v)) as [[r st]| |] eqn:Es; try discriminate E. cbn in E.
  destruct (Hpc Hm r st Es) as (Ex & Hm' & HQ).
  assert (Hse : stack_effect v tk = Ok v) by (destruct tk; try contradiction; reflexivity).
  rewrite Hse in E. cbn in E. destruct r as [[i|]|e]; [| contradiction | discriminate E].
  unfold patt in E. destruct (nth_error (pats st) i) as [x|] eqn:Ei; [|discriminate E]. cbn in E.
  destruct (is_not_allowed x) eqn:Ena; [discriminate E|]. injection E as <-. cbn. split; [split; assumption|]. split; [exact HQ|].
  split; [destruct tk; try contradiction; reflexivity|]. rewrite Ei. intros HH; injection HH as ->; discriminate Ena.
Qed.
Lemma validate_quiet fuel v tk v' : memo_ok (v_store v) ->
  (match tk with TElementEnd _ | TText _ _ | TCdata _ => False | _ => True end) ->
  validate O fuel v tk = Ok (v', None) -> v_store v' = v_store v /\ v_cur v' = v_cur v /\ v_last v' = v_last v.
Proof.
  intros Hm Ht E. unfold validate, validate_step, bind, patt in E.
  destruct (nth_error (pats (v_store v)) (v_cur v)); [|discriminate E].
  destruct tk as [| | | | | |n [d|]| |pp ll xx| | |]; try contradiction; cbn in E; try discriminate E; try (injection E as <-; auto).
  destruct (add_attr (v_stack v) pp ll xx); cbn in E; try discriminate E. injection E as <-; auto.
Qed.
Lemma run_quiet fuel toks : Forall (fun tk => match tk with TElementEnd _ | TText _ _ | TCdata _ => False | _ => True end) toks ->
  forall v v', memo_ok (v_store v) -> run O fuel v toks = Ok (v', None) ->
  v_store v' = v_store v /\ v_cur v' = v_cur v /\ v_last v' = v_last v.
Proof.
  induction 1 as [|tk toks Ht _ IH]; intros v v' Hm E; cbn [run] in E; [injection E as <-; auto|].
  destruct (validate O fuel v tk) as [[v1 [e|]]| |] eqn:E1; try discriminate E. cbn in E.
  destruct (validate_quiet _ _ _ _ Hm Ht E1) as (A & B & C). destruct (IH v1 v') as (A' & B' & C'); [rewrite A; exact Hm | exact E|].
  split; [congruence|]. split; congruence.
Qed.
Lemma run_app_ok fuel t1 t2 : forall v v', run O fuel v (t1 ++ t2) = Ok (v', None) ->
  exists v1, run O fuel v t1 = Ok (v1, None) /\ run O fuel v1 t2 = Ok (v', None).
Proof.
  induction t1 as [|tk t1 IH]; intros v v' E; [exists v; auto|]. cbn [run app] in *.
  destruct (validate O fuel v tk) as [[v1 [e|]]| |]; try discriminate E. cbn in *. apply IH; exact E.
Qed.
Lemma run_one fuel tk v v' : run O fuel v [tk] = Ok (v', None) -> validate O fuel v tk = Ok (v', None).
Proof. cbn. destruct (validate O fuel v tk) as [[v1 [e|]]| |]; cbn; congruence. Qed.

Definition node_shape (x : xnode) : Prop := forall fuel v v' d, memo_ok (v_store v) -> v_last v = false ->
  run O fuel v (tokens_of x) = Ok (v', None) ->
  (Shape (v_store v) (S d) (v_cur v) -> vext v v' /\ Shape (v_store v') (S d) (v_cur v') /\ v_last v' = false) /\
  (match x with XElem _ _ _ _ _ => SE (v_store v) (v_cur v) -> vext v v' /\ Shape (v_store v') 0 (v_cur v') /\ v_last v' = false /\ nth_error (pats (v_store v')) (v_cur v') <> Some PNotAllowed | _ => True end).

Lemma nodes_shape xs : Forall node_shape xs -> forall fuel v v' d, memo_ok (v_store v) -> v_last v = false ->
  run O fuel v (flat_map tokens_of xs) = Ok (v', None) -> Shape (v_store v) (S d) (v_cur v) ->
  vext v v' /\ Shape (v_store v') (S d) (v_cur v') /\ v_last v' = false.
Proof.
  induction 1 as [|x xs Hx _ IH]; intros fuel v v' d Hm Hl E HS; cbn [flat_map] in E.
  - injection E as <-. split; [split; [apply ext_refl | exact Hm]|]. auto.
  - apply run_app_ok in E; destruct E as (v1 & E1 & E2).
    destruct (Hx fuel v v1 d Hm Hl E1) as [H1 _]. destruct (H1 HS) as ((X1 & M1) & S1 & L1).
    destruct (IH fuel v1 v' d M1 L1 E2 S1) as ((X2 & M2) & S2 & L2). split; [split; [exts | exact M2]|]. auto.
Qed.

Lemma pc_elem_end fuel p l d v v' : memo_ok (v_store v) -> v_last v = false -> Shape (v_store v) (S d) (v_cur v) ->
  validate O fuel v (TElementEnd (EndClose p l)) = Ok (v', None) ->
  vext v v' /\ Shape (v_store v') d (v_cur v') /\ v_last v' = false /\ nth_error (pats (v_store v')) (v_cur v') <> Some PNotAllowed.
Proof.
  intros Hm Hl HS E. refine (validate_pc fuel v _ v' (fun i st' => Shape st' d i) Hm _ _ E); [exact I|].
  unfold validate_step. pcb pc_patt; intros x st1 E1 Hx. rewrite Hl.
  eapply pc_bind; [eapply pc_end_element; [exact Hx | shx]|]. intros i st2 E2 Hi. apply pc_ret; exact Hi.
Qed.
Lemma elem_shape p l a sc kids : Forall node_shape kids -> forall fuel v v' d, memo_ok (v_store v) -> v_last v = false ->
  run O fuel v (tokens_of (XElem p l a sc kids)) = Ok (v', None) -> opens (v_store v) d (v_cur v) ->
  vext v v' /\ Shape (v_store v') d (v_cur v') /\ v_last v' = false /\ nth_error (pats (v_store v')) (v_cur v') <> Some PNotAllowed.
Proof.
  intros Hk fuel v v' d Hm Hl E HS. cbn [tokens_of] in E. rewrite app_comm_cons in E.
  apply run_app_ok in E; destruct E as (v1 & E1 & E2).
  assert (Hq : v_store v1 = v_store v /\ v_cur v1 = v_cur v /\ v_last v1 = v_last v).
  { eapply run_quiet; [|exact Hm | exact E1]. constructor; [exact I|]. apply Forall_forall. intros tk Htk.
    apply in_map_iff in Htk. destruct Htk as ([[q lo] x] & <- & _). exact I. }
  destruct Hq as (Q1 & Q2 & Q3).
  destruct (sc && is_nil kids).
  - apply run_one in E2.
    destruct (fun A B C => validate_pc fuel v1 _ v' (fun i st' => Shape st' d i) A B C E2) as ((X & M) & S1 & L1 & A1).
    + rewrite Q1; exact Hm.
    + exact I.
    + unfold validate_step. rewrite Q1, Q2. pcb pc_patt; intros x st1 EE1 Hx.
      eapply pc_bind; [eapply pc_start; [exact Hx | opx]|].
      intros [i|e] st2 EE2 Hi; [|apply pc_ret; exact I]. pcb pc_patt; intros y st3 EE3 Hy. rewrite Q3, Hl.
      eapply pc_bind; [eapply pc_end_element; [exact Hy | shx]|]. intros i' st4 EE4 Hi'. apply pc_ret; exact Hi'.
    + split; [split; [rewrite <- Q1; exact X | exact M] | auto].
  - change (TElementEnd EndOpen :: ?r) with ([TElementEnd EndOpen] ++ r) in E2.
    apply (run_app_ok fuel [TElementEnd EndOpen]) in E2; destruct E2 as (v2 & E2 & E3). apply run_one in E2.
    destruct (fun A B C => validate_pc fuel v1 _ v2 (fun i st' => Shape st' (S d) i) A B C E2) as ((X & M) & S1 & L1 & A1).
    + rewrite Q1; exact Hm.
    + exact I.
    + unfold validate_step. rewrite Q1, Q2. pcb pc_patt; intros x st1 EE1 Hx.
      eapply pc_bind; [eapply pc_start; [exact Hx | opx]|].
      intros [i|e] st2 EE2 Hi; apply pc_ret; [exact Hi | exact I].
    + rewrite Q1 in X. apply run_app_ok in E3; destruct E3 as (v3 & E3 & E4).
      destruct (nodes_shape kids Hk fuel v2 v3 d M L1 E3 S1) as ((X3 & M3) & S3 & L3).
      apply run_one in E4. destruct (pc_elem_end fuel p l d v3 v' M3 L3 S3 E4) as ((X4 & M4) & S4 & L4 & A4).
      split; [split; [|exact M4] | auto]. eapply ext_trans; [exact X|]. eapply ext_trans; eassumption.
Qed.
Lemma node_shape_all x : node_shape x.
Proof.
  induction x as [start raw|s|s|s|p l a sc kids IHk] using xnode_ind'; intros fuel v v' d Hm Hl E; (split; [|try exact I]).
  - intros HS. apply run_one in E.
    refine ((fun F => match validate_pc fuel v _ v' (fun i st' => Shape st' (S d) i) Hm _ F E with conj A (conj B (conj C _)) => conj A (conj B C) end) _); [exact I|].
    unfold validate_step. pcb pc_patt; intros x st1 E1 Hx. destruct (text_data _ _ _); [|apply pc_ret; exact I].
    eapply pc_bind; [eapply pc_text; [exact Hx | shx]|]. intros i st2 E2 Hi.
    pcb pc_patt; intros y st3 E3 _. destruct (is_not_allowed y); apply pc_ret; [exact I | shx].
  - intros HS. apply run_one in E.
    refine ((fun F => match validate_pc fuel v _ v' (fun i st' => Shape st' (S d) i) Hm _ F E with conj A (conj B (conj C _)) => conj A (conj B C) end) _); [exact I|].
    unfold validate_step. pcb pc_patt; intros x st1 E1 Hx.
    eapply pc_bind; [eapply pc_text; [exact Hx | shx]|]. intros i st2 E2 Hi. apply pc_ret; exact Hi.
  - intros HS. apply run_quiet in E; [|repeat constructor|exact Hm]. destruct E as (A & B & C).
    unfold vext. rewrite A, B, C. split; [split; [apply ext_refl | exact Hm]|]. auto.
  - intros HS. apply run_quiet in E; [|repeat constructor|exact Hm]. destruct E as (A & B & C).
    unfold vext. rewrite A, B, C. split; [split; [apply ext_refl | exact Hm]|]. auto.
  - intros HS. destruct (elem_shape p l a sc kids IHk fuel v v' (S d) Hm Hl E HS) as (A & B & C & _); auto.
  - intros HS. exact (elem_shape p l a sc kids IHk fuel v v' 0 Hm Hl E HS).
Qed.
End O.
