(** * Balance: the tags of an accepted token stream (C18).

    The validator does not check that the document ends (lib.rs:617-623), but what it lets through
    is always the beginning of one document: end tags never outnumber start tags, nothing but white
    space is let through outside the root element, and no second root element. *)
From Verif Require Import Base Datatype Store Deriv Events Lang Wp Doc Tail Accept Compile Schema Spec Scope Final InfosetProof Main BalanceSpec.
Open Scope monad_scope.

Lemma total_app f a b : total f (a ++ b) = total f a + total f b.
Proof. induction a; cbn; lia. Qed.
Lemma white_blank s : is_whitespace_str s = true -> blank s.
Proof.
  unfold is_whitespace_str, blank. rewrite forallb_forall, Forall_forall. auto.
Qed.

Section O.
Variable O : oracles.
Notation NA := (fun (i : pid) (st' : store) => nth_error (pats st') i = Some PNotAllowed).

Lemma pc_choice_na l r st : nth_error (pats st) l = Some PNotAllowed -> nth_error (pats st) r = Some PNotAllowed -> pc (choice l r) st NA.
Proof.
  intros Hl Hr. unfold choice. pcb pc_patt; intros x st1 E1 Hx. pcb pc_patt; intros y st2 E2 Hy.
  assert (x = PNotAllowed) as -> by (apply (ext_nth _ _ _ _ E1) in Hl; congruence).
  cbn. apply pc_ret. nthx.
Qed.
Lemma pc_end_SE fuel : forall id p st, nth_error (pats st) id = Some p -> SE st id -> pc (end_tag_deriv fuel p) st NA.
Proof.
  induction fuel as [|fuel IH]; intros id p st Hp HS; [apply pc_oof|].
  inversion HS as [id0 Hn|id0 nc c Hn|id0 l r n Hn Hl Hr]; subst; rewrite Hn in Hp; injection Hp as <-; cbn [end_tag_deriv]; try apply pc_na.
  pcb pc_patt; intros x1 st1 E1 H1. pcb pc_patt; intros x2 st2 E2 H2. pose proof (ext_trans _ _ _ E1 E2) as E12.
  eapply pc_bind; [eapply (IH l); [eapply ext_nth; [exact E2 | exact H1] | eapply SE_ext; [exact E12 | exact Hl]]|]. intros d1 st3 E3 Hd1.
  eapply pc_bind; [eapply (IH r); [eapply ext_nth; [exact E3 | exact H2] | eapply SE_ext; [eapply ext_trans; [exact E12 | exact E3] | exact Hr]]|]. intros d2 st4 E4 Hd2.
  apply pc_choice_na; [nthx | exact Hd2].
Qed.
Lemma pc_end_0 fuel : forall id p st, nth_error (pats st) id = Some p -> Shape st 0 id -> pc (end_tag_deriv fuel p) st NA.
Proof.
  intros id p st Hp HS. inversion HS as [d0 id0 Hn|id0 HE| |]; subst.
  { rewrite Hn in Hp; injection Hp as <-. destruct fuel; [apply pc_oof | apply pc_na]. }
  clear HS. revert id p st Hp HE. induction fuel as [|fuel IH]; intros id p st Hp HE; [apply pc_oof|].
  inversion HE as [id0 Hn|id0 l r Hn Hl Hr]; subst; rewrite Hn in Hp; injection Hp as <-; cbn [end_tag_deriv]; try apply pc_na.
  pcb pc_patt; intros x1 st1 E1 H1. pcb pc_patt; intros x2 st2 E2 H2. pose proof (ext_trans _ _ _ E1 E2) as E12.
  eapply pc_bind; [eapply (IH l); [eapply ext_nth; [exact E2 | exact H1] | eapply Emp_ext; [exact E12 | exact Hl]]|]. intros d1 st3 E3 Hd1.
  eapply pc_bind; [eapply (IH r); [eapply ext_nth; [exact E3 | exact H2] | eapply Emp_ext; [eapply ext_trans; [exact E12 | exact E3] | exact Hr]]|]. intros d2 st4 E4 Hd2.
  apply pc_choice_na; [nthx | exact Hd2].
Qed.
Lemma pc_open_0 fuel nm : forall id p st, nth_error (pats st) id = Some p -> Shape st 0 id -> pc (start_tag_open_deriv fuel p nm) st NA.
Proof.
  intros id p st Hp HS. inversion HS as [d0 id0 Hn|id0 HE| |]; subst.
  { rewrite Hn in Hp; injection Hp as <-. destruct fuel; [apply pc_oof | apply pc_na]. }
  clear HS. revert id p st Hp HE. induction fuel as [|fuel IH]; intros id p st Hp HE; [apply pc_oof|].
  inversion HE as [id0 Hn|id0 l r Hn Hl Hr]; subst; rewrite Hn in Hp; injection Hp as <-; cbn [start_tag_open_deriv]; try apply pc_na.
  pcb pc_patt; intros x1 st1 E1 H1. pcb pc_patt; intros x2 st2 E2 H2. pose proof (ext_trans _ _ _ E1 E2) as E12.
  eapply pc_bind; [eapply (IH l); [eapply ext_nth; [exact E2 | exact H1] | eapply Emp_ext; [exact E12 | exact Hl]]|]. intros d1 st3 E3 Hd1.
  eapply pc_bind; [eapply (IH r); [eapply ext_nth; [exact E3 | exact H2] | eapply Emp_ext; [eapply ext_trans; [exact E12 | exact E3] | exact Hr]]|]. intros d2 st4 E4 Hd2.
  apply pc_choice_na; [nthx | exact Hd2].
Qed.
(** text outside the root *)
Definition only_white (s : str) (P : store -> pid -> Prop) (i : pid) (st : store) : Prop :=
  (is_whitespace_str s = true /\ P st i) \/ nth_error (pats st) i = Some PNotAllowed.
Lemma pc_choice_SE l r st : SE st l -> SE st r -> pc (choice l r) st (fun i st' => SE st' i).
Proof.
  intros Hl Hr. unfold choice. pcb pc_patt; intros x st1 E1 Hx. pcb pc_patt; intros y st2 E2 Hy.
  apply (SE_ext _ _ _ E1), (SE_ext _ _ _ E2) in Hl. apply (SE_ext _ _ _ E1), (SE_ext _ _ _ E2) in Hr.
  destruct (is_not_allowed x); [apply pc_ret; exact Hr|]. destruct (is_not_allowed y); [apply pc_ret; exact Hl|].
  destruct (Nat.eqb l r); [apply pc_ret; exact Hl|].
  eapply pc_mono; [apply pc_push; reflexivity|]. intros i st' E Hi. eapply SE_choice; [exact Hi | eapply SE_ext; eassumption | eapply SE_ext; eassumption].
Qed.
Lemma pc_text_SE fuel s : forall id p st, nth_error (pats st) id = Some p -> SE st id -> pc (text_deriv O fuel p s) st (only_white s SE).
Proof.
  induction fuel as [|fuel IH]; intros id p st Hp HS; [apply pc_oof|].
  inversion HS as [id0 Hn|id0 nc c Hn|id0 l r n Hn Hl Hr]; subst; rewrite Hn in Hp; injection Hp as <-; cbn [text_deriv].
  - eapply pc_mono; [apply pc_na|]. intros; right; assumption.
  - destruct (is_whitespace_str s) eqn:Ew.
    + eapply pc_mono; [apply pc_push; reflexivity|]. intros i st' E Hi; left; split; [exact Ew | eapply SE_elem; exact Hi].
    + eapply pc_mono; [apply pc_na|]. intros; right; assumption.
  - pcb pc_patt; intros x1 st1 E1 H1. pcb pc_patt; intros x2 st2 E2 H2. pose proof (ext_trans _ _ _ E1 E2) as E12.
    eapply pc_bind; [eapply (IH l); [eapply ext_nth; [exact E2 | exact H1] | eapply SE_ext; [exact E12 | exact Hl]]|]. intros d1 st3 E3 Hd1.
    eapply pc_bind; [eapply (IH r); [eapply ext_nth; [exact E3 | exact H2] | eapply SE_ext; [eapply ext_trans; [exact E12 | exact E3] | exact Hr]]|]. intros d2 st4 E4 Hd2.
    cbn beta in *. destruct (is_whitespace_str s) eqn:Ew.
    + assert (A : SE st4 d1) by (destruct Hd1 as [[_ H]|H]; [eapply SE_ext; eassumption | apply SE_na; nthx]).
      assert (B : SE st4 d2) by (destruct Hd2 as [[_ H]|H]; [exact H | apply SE_na; exact H]).
      eapply pc_mono; [apply pc_choice_SE; [exact A | exact B]|]. intros i st' E Hi; left; auto.
    + destruct Hd1 as [[? _]|Hd1]; [congruence|]. destruct Hd2 as [[? _]|Hd2]; [congruence|].
      eapply pc_mono; [apply pc_choice_na; [nthx | exact Hd2]|]. intros; right; assumption.
Qed.
Lemma pc_text_0 fuel s : forall id p st, nth_error (pats st) id = Some p -> Shape st 0 id -> pc (text_deriv O fuel p s) st (only_white s (fun st' i => Shape st' 0 i)).
Proof.
  intros id p st Hp HS. inversion HS as [d0 id0 Hn|id0 HE| |]; subst.
  { rewrite Hn in Hp; injection Hp as <-. destruct fuel; [apply pc_oof | ]. cbn [text_deriv]. eapply pc_mono; [apply pc_na|]. intros; right; assumption. }
  clear HS. revert id p st Hp HE. induction fuel as [|fuel IH]; intros id p st Hp HE; [apply pc_oof|].
  inversion HE as [id0 Hn|id0 l r Hn Hl Hr]; subst; rewrite Hn in Hp; injection Hp as <-; cbn [text_deriv].
  - destruct (is_whitespace_str s) eqn:Ew.
    + eapply pc_mono; [apply pc_empty|]. intros i st' E Hi; left; split; [exact Ew | apply Sh_nul, Emp_empty; exact Hi].
    + eapply pc_mono; [apply pc_na|]. intros; right; assumption.
  - pcb pc_patt; intros x1 st1 E1 H1. pcb pc_patt; intros x2 st2 E2 H2. pose proof (ext_trans _ _ _ E1 E2) as E12.
    eapply pc_bind; [eapply (IH l); [eapply ext_nth; [exact E2 | exact H1] | eapply Emp_ext; [exact E12 | exact Hl]]|]. intros d1 st3 E3 Hd1.
    eapply pc_bind; [eapply (IH r); [eapply ext_nth; [exact E3 | exact H2] | eapply Emp_ext; [eapply ext_trans; [exact E12 | exact E3] | exact Hr]]|]. intros d2 st4 E4 Hd2.
    cbn beta in *. destruct (is_whitespace_str s) eqn:Ew.
    + assert (A : Shape st4 0 d1) by (destruct Hd1 as [[_ H]|H]; [shx | apply Sh_na; nthx]).
      assert (B : Shape st4 0 d2) by (destruct Hd2 as [[_ H]|H]; [exact H | apply Sh_na; exact H]).
      eapply pc_mono; [apply pc_choice; [exact A | exact B]|]. intros i st' E Hi; left; auto.
    + destruct Hd1 as [[? _]|Hd1]; [congruence|]. destruct Hd2 as [[? _]|Hd2]; [congruence|].
      eapply pc_mono; [apply pc_choice_na; [nthx | exact Hd2]|]. intros; right; assumption.
Qed.

(** ** The state after an accepted prefix *)
Definition at_depth (seen : list token) (v : validator) : Prop :=
  memo_ok (v_store v) /\ v_last v = false /\
  match total opens_one seen with
  | 0 => total closes_one seen = 0 /\ SE (v_store v) (v_cur v)
  | S n => total closes_one seen <= S n /\ Shape (v_store v) (S n - total closes_one seen) (v_cur v)
  end.

Lemma start_0_na fuel stk evt id p st : nth_error (pats st) id = Some p -> Shape st 0 id ->
  pc (close_element_start O fuel stk evt p) st (fun r st' => match r with inl i => False | inr _ => True end).
Proof.
  intros Hp HS. unfold close_element_start.
  eapply pc_bind with (Q := fun _ st' => st' = st); [apply pc_lift; reflexivity|]. intros [nm|e] st0 E0 ->; [|apply pc_ret; exact I].
  eapply pc_bind; [eapply pc_open_0; eassumption|]. intros i st1 E1 Hi. pcb pc_patt; intros x st2 E2 Hx. cbn beta in *.
  apply (ext_nth _ _ _ _ E2) in Hi. assert (x = PNotAllowed) as -> by congruence. apply pc_ret; exact I.
Qed.
Ltac vp Q := match goal with Hm : memo_ok (v_store ?v), E : validate _ ?fuel ?v _ = Ok (?v', None) |- _ =>
  destruct (fun B C => validate_pc O fuel v _ v' Q Hm B C E) as ((? & ?) & ? & ? & ?); [exact I | unfold validate_step | ] end.

Lemma step fuel seen v tk v' : at_depth seen v -> validate O fuel v tk = Ok (v', None) ->
  fits seen tk /\ at_depth (seen ++ [tk]) v'.
Proof.
  intros (Hm & Hl & HD) E.
  assert (Hquiet : match tk with TElementEnd _ | TText _ _ | TCdata _ => False | _ => True end -> fits seen tk /\ at_depth (seen ++ [tk]) v').
  { intros Ht. destruct (validate_quiet O _ _ _ _ Hm Ht E) as (A & B & C). unfold at_depth. rewrite !total_app, A, B, C. cbn [total].
    replace (opens_one tk) with 0 by (destruct tk; try contradiction; reflexivity).
    replace (closes_one tk) with 0 by (destruct tk; try contradiction; reflexivity). rewrite !Nat.add_0_r.
    split; [|auto]. constructor; intros; subst; try contradiction. destruct tk; try contradiction; discriminate. }
  destruct tk as [| | | | | | | | |e|i s|s]; try (apply Hquiet; exact I); clear Hquiet; unfold at_depth; rewrite !total_app; cbn [total].
  - (* tags *)
    assert (Ftext : forall A, (forall p l, e = EndClose p l -> total closes_one seen < total opens_one seen) ->
      (e <> EndClose (fst A) (snd A) -> total closes_one seen < total opens_one seen \/ total opens_one seen = 0) -> True) by auto. clear Ftext.
    destruct (total opens_one seen) as [|n] eqn:En.
    + destruct HD as (HC & HSE). rewrite HC. destruct e as [|p l|]; cbn [opens_one closes_one].
      * vp (fun i st' => Shape st' 1 i).
        { pcb pc_patt; intros x st1 E1 Hx. eapply pc_bind; [apply (pc_start O fuel (v_stack v) _ (v_cur v) x _ 0 Hx); cbn; eapply SE_ext; eassumption|].
          intros [i|e] st2 E2 Hi; apply pc_ret; [exact Hi | exact I]. }
        split; [constructor; intros; try discriminate; right; exact En|]. cbn. auto.
      * exfalso. vp (fun i st' => nth_error (pats st') i = Some PNotAllowed).
        { pcb pc_patt; intros x st1 E1 Hx. rewrite Hl. unfold end_element. cbn [bind ret]. 
          eapply pc_bind with (Q := NA); [|intros i st2 E2 Hi; apply pc_ret; exact Hi].
          eapply pc_bind with (Q := fun q st' => q = x /\ st' = st1); [apply pc_ret; auto|]. intros q st0 E0 [-> ->].
          eapply pc_end_SE; [exact Hx | eapply SE_ext; [exact E1 | exact HSE]]. }
        contradiction.
      * vp (fun i st' => Shape st' 0 i).
        { pcb pc_patt; intros x st1 E1 Hx. eapply pc_bind; [apply (pc_start O fuel (v_stack v) _ (v_cur v) x _ 0 Hx); cbn; eapply SE_ext; eassumption|].
          intros [i|e] st2 E2 Hi; [|apply pc_ret; exact I]. pcb pc_patt; intros y st3 E3 Hy. rewrite Hl.
          eapply pc_bind; [eapply pc_end_element; [exact Hy | shx]|]. intros i' st4 E4 Hi'. apply pc_ret; exact Hi'. }
        split; [constructor; intros; try discriminate; right; exact En|]. cbn. auto.
    + destruct HD as (HC & HS). destruct (S n - total closes_one seen) as [|d] eqn:Ed.
      * assert (Hout : match e with EndClose _ _ => True | _ => False end -> False).
        { destruct e as [|p l|]; try tauto. intros _. vp (fun i st' => nth_error (pats st') i = Some PNotAllowed).
          { pcb pc_patt; intros x st1 E1 Hx. rewrite Hl. unfold end_element.
            eapply pc_bind with (Q := NA); [|intros i st2 E2 Hi; apply pc_ret; exact Hi].
            eapply pc_bind with (Q := fun q st' => q = x /\ st' = st1); [apply pc_ret; auto|]. intros q st0 E0 [-> ->].
            eapply pc_end_0; [exact Hx | shx]. }
          contradiction. }
        exfalso. destruct e as [|p l|]; [| exact (Hout I) |]; clear Hout.
        -- vp (fun (i : pid) (st' : store) => False).
           { pcb pc_patt; intros x st1 E1 Hx. eapply pc_bind; [eapply start_0_na; [exact Hx | shx]|]. intros [i|e] st2 E2 Hi; [contradiction | apply pc_ret; exact I]. }
           contradiction.
        -- vp (fun (i : pid) (st' : store) => False).
           { pcb pc_patt; intros x st1 E1 Hx. eapply pc_bind; [eapply start_0_na; [exact Hx | shx]|]. intros [i|e] st2 E2 Hi; [contradiction | apply pc_ret; exact I]. }
           contradiction.
      * assert (Hlt : total closes_one seen < S n) by lia.
        split; [constructor; intros; try discriminate; [lia | left; lia]|].
        destruct e as [|p l|]; cbn [opens_one closes_one].
        -- vp (fun i st' => Shape st' (S (S d)) i).
           { pcb pc_patt; intros x st1 E1 Hx. eapply pc_bind; [apply (pc_start O fuel (v_stack v) _ (v_cur v) x _ (S d) Hx); cbn; shx|].
             intros [i|e] st2 E2 Hi; apply pc_ret; [exact Hi | exact I]. }
           replace (S n + (1 + 0)) with (S (S n)) by lia. split; [assumption|]. split; [assumption|]. split; [lia|].
           replace (S (S n) - (total closes_one seen + (0 + 0))) with (S (S d)) by lia. assumption.
        -- vp (fun i st' => Shape st' d i).
           { pcb pc_patt; intros x st1 E1 Hx. rewrite Hl. eapply pc_bind; [eapply pc_end_element; [exact Hx | shx]|]. intros i st2 E2 Hi. apply pc_ret; exact Hi. }
           rewrite !Nat.add_0_r. split; [assumption|]. split; [assumption|]. split; [lia|].
           replace (S n - (total closes_one seen + 1)) with d by lia. assumption.
        -- vp (fun i st' => Shape st' (S d) i).
           { pcb pc_patt; intros x st1 E1 Hx. eapply pc_bind; [apply (pc_start O fuel (v_stack v) _ (v_cur v) x _ (S d) Hx); cbn; shx|].
             intros [i|e] st2 E2 Hi; [|apply pc_ret; exact I]. pcb pc_patt; intros y st3 E3 Hy. rewrite Hl.
             eapply pc_bind; [eapply pc_end_element; [exact Hy | shx]|]. intros i' st4 E4 Hi'. apply pc_ret; exact Hi'. }
           replace (S n + (1 + 0)) with (S (S n)) by lia. split; [assumption|]. split; [assumption|]. split; [lia|].
           replace (S (S n) - (total closes_one seen + (1 + 0))) with (S d) by lia. assumption.
  - (* text *)
    cbn [opens_one closes_one]. rewrite !Nat.add_0_r.
    assert (Hnd : ~ In 38%N s -> forall d, text_data (v_ents v) i s = inl d -> d = s) by (intros Hn d; rewrite text_data_plain by exact Hn; congruence).
    destruct (total opens_one seen) as [|n] eqn:En.
    + destruct HD as (HC & HSE). rewrite HC.
      vp (fun j st' => (~ In 38%N s -> is_whitespace_str s = true) /\ SE st' j \/ nth_error (pats st') j = Some PNotAllowed).
      { pcb pc_patt; intros x st1 E1 Hx. destruct (text_data (v_ents v) i s) as [d|e] eqn:Et; [|apply pc_ret; exact I].
        eapply pc_bind; [eapply (pc_text_SE fuel d); [exact Hx | eapply SE_ext; eassumption]|]. intros j st2 E2 Hj.
        pcb pc_patt; intros y st3 E3 Hy. destruct (is_not_allowed y); apply pc_ret; [exact I|]. cbn beta in *.
        destruct Hj as [[Hw HS]|Hj]; [left | right; nthx]. split; [intros Hn; rewrite <- (Hnd Hn d eq_refl); exact Hw | eapply SE_ext; eassumption]. }
      destruct H1 as [[Hw HS]|?]; [|contradiction]. split; [|auto].
      constructor; intros; try discriminate. match goal with H : TText _ _ = TText _ _ |- _ => injection H as -> -> end. apply white_blank; auto.
    + destruct HD as (HC & HS). destruct (S n - total closes_one seen) as [|d] eqn:Ed.
      * vp (fun j st' => (~ In 38%N s -> is_whitespace_str s = true) /\ Shape st' 0 j \/ nth_error (pats st') j = Some PNotAllowed).
        { pcb pc_patt; intros x st1 E1 Hx. destruct (text_data (v_ents v) i s) as [d|e] eqn:Et; [|apply pc_ret; exact I].
          eapply pc_bind; [eapply (pc_text_0 fuel d); [exact Hx | shx]|]. intros j st2 E2 Hj.
          pcb pc_patt; intros y st3 E3 Hy. destruct (is_not_allowed y); apply pc_ret; [exact I|]. cbn beta in *.
          destruct Hj as [[Hw HS']|Hj]; [left | right; nthx]. split; [intros Hn; rewrite <- (Hnd Hn d eq_refl); exact Hw | shx]. }
        destruct H1 as [[Hw HS']|?]; [|contradiction]. split; [|auto].
        constructor; intros; try discriminate. match goal with H : TText _ _ = TText _ _ |- _ => injection H as -> -> end. apply white_blank; auto.
      * vp (fun j st' => Shape st' (S d) j).
        { pcb pc_patt; intros x st1 E1 Hx. destruct (text_data (v_ents v) i s) as [dd|e] eqn:Et; [|apply pc_ret; exact I].
          eapply pc_bind; [eapply pc_text; [exact Hx | shx]|]. intros j st2 E2 Hj.
          pcb pc_patt; intros y st3 E3 Hy. destruct (is_not_allowed y); apply pc_ret; [exact I | shx]. }
        split; [|auto]. constructor; intros; try discriminate; lia.
  - (* CDATA *)
    cbn [opens_one closes_one]. rewrite !Nat.add_0_r.
    destruct (total opens_one seen) as [|n] eqn:En.
    + destruct HD as (HC & HSE). rewrite HC.
      vp (fun j st' => only_white s SE j st').
      { pcb pc_patt; intros x st1 E1 Hx.
        eapply pc_bind; [eapply (pc_text_SE fuel s); [exact Hx | eapply SE_ext; eassumption]|]. intros j st2 E2 Hj. apply pc_ret; exact Hj. }
      destruct H1 as [[Hw HS]|?]; [|contradiction]. split; [|auto].
      constructor; intros; try discriminate. match goal with H : TCdata _ = TCdata _ |- _ => injection H as -> end. apply white_blank; auto.
    + destruct HD as (HC & HS). destruct (S n - total closes_one seen) as [|d] eqn:Ed.
      * vp (fun j st' => only_white s (fun st'' i => Shape st'' 0 i) j st').
        { pcb pc_patt; intros x st1 E1 Hx.
          eapply pc_bind; [eapply (pc_text_0 fuel s); [exact Hx | shx]|]. intros j st2 E2 Hj. apply pc_ret; exact Hj. }
        destruct H1 as [[Hw HS']|?]; [|contradiction]. split; [|auto].
        constructor; intros; try discriminate. match goal with H : TCdata _ = TCdata _ |- _ => injection H as -> end. apply white_blank; auto.
      * vp (fun j st' => Shape st' (S d) j).
        { pcb pc_patt; intros x st1 E1 Hx. eapply pc_bind; [eapply pc_text; [exact Hx | shx]|]. intros j st2 E2 Hj. apply pc_ret; exact Hj. }
        split; [|auto]. constructor; intros; try discriminate; lia.
Qed.

Lemma run_fits fuel toks : forall seen v v', at_depth seen v -> run O fuel v toks = Ok (v', None) ->
  (forall a t b, toks = a ++ t :: b -> fits (seen ++ a) t) /\ total closes_one (seen ++ toks) <= total opens_one (seen ++ toks).
Proof.
  induction toks as [|t toks IH]; intros seen v v' HA E.
  - split; [intros [|? a] t0 b Hx; discriminate|]. rewrite app_nil_r. destruct HA as (_ & _ & H). destruct (total opens_one seen); lia.
  - cbn [run] in E. destruct (validate O fuel v t) as [[v1 [e|]]| |] eqn:E1; try discriminate E. cbn in E.
    destruct (step _ _ _ _ _ HA E1) as [HF HA']. destruct (IH _ _ _ HA' E) as [H1 H2]. rewrite <- app_assoc in H2. split; [|exact H2].
    intros [|t' a] u b Hx; injection Hx as <- Hx; [rewrite app_nil_r; subst; exact HF|].
    replace (seen ++ t :: a) with ((seen ++ [t]) ++ a) by (rewrite <- app_assoc; reflexivity). eapply H1. exact Hx.
Qed.
End O.

Theorem accepted_fits O defs start : rng_schema defs start -> in_limits defs start -> forall toks, accepts O defs start toks ->
  (forall seen t rest, toks = seen ++ t :: rest -> fits seen t) /\ total closes_one toks <= total opens_one toks.
Proof.
  intros Hrng Hlim toks (v & n0 & Hv). pose proof (scope_ok defs O start Hrng Hlim) as Hok.
  destruct (new_validator_ok O _ defs any_type start Hok) as (n & r & Hn & Hr).
  pose proof (Hv (n0 + n) ltac:(lia)) as E. unfold check in E. rewrite (Hn (n0 + n)) in E by lia.
  destruct Hr as [->|(st & id & -> & HI & HR & HSE & HG & HK)]; [discriminate E|]. cbn [rbind] in E.
  refine (run_fits O _ toks [] _ _ _ E). split; [eapply G_memo_ok; exact HG|]. split; [reflexivity|]. cbn. auto.
Qed.
(** Consequence: if the tags of an accepted stream balance and it has one at all, there is exactly one root element, and
    nothing but misc and white space is outside it. *)
Lemma fits_le toks : (forall seen t rest, toks = seen ++ t :: rest -> fits seen t) ->
  forall a b, toks = a ++ b -> total closes_one a <= total opens_one a.
Proof.
  intros H a. induction a as [|t a IH] using rev_ind; intros b Hx; [cbn; lia|].
  rewrite <- app_assoc in Hx; cbn in Hx. specialize (IH _ Hx). destruct (H _ _ _ Hx) as [He _ _ _].
  rewrite !total_app; cbn. destruct t as [| | | | | | | | |[|p l|]| |]; cbn; try lia. specialize (He p l eq_refl). lia.
Qed.
Lemma first_balanced rest : forall acc, total closes_one (acc ++ rest) = total opens_one (acc ++ rest) ->
  exists r after, rest = r ++ after /\ total closes_one (acc ++ r) = total opens_one (acc ++ r) /\
    forall a b, r = a ++ b -> b <> [] -> total closes_one (acc ++ a) <> total opens_one (acc ++ a).
Proof.
  induction rest as [|t rest IH]; intros acc H.
  - exists [], []. split; [reflexivity|]. split; [exact H|]. intros a b Hab Hb. destruct a, b; try discriminate. contradiction.
  - destruct (Nat.eq_dec (total closes_one acc) (total opens_one acc)) as [Hb|Hb].
    + exists [], (t :: rest). rewrite app_nil_r. split; [reflexivity|]. split; [exact Hb|]. intros a b Hab Hn. destruct a, b; try discriminate. contradiction.
    + destruct (IH (acc ++ [t])) as (r & after & -> & Hr & Hmin); [rewrite <- app_assoc; exact H|].
      exists (t :: r), after. split; [reflexivity|]. rewrite <- app_assoc in Hr. split; [exact Hr|].
      intros [|t0 a] b Hab Hn; [rewrite app_nil_r; exact Hb|]. injection Hab as <- Hab. specialize (Hmin a b Hab Hn). rewrite <- app_assoc in Hmin. exact Hmin.
Qed.
Lemma first_open toks : 1 <= total opens_one toks -> exists before t rest, toks = before ++ t :: rest /\ total opens_one before = 0 /\ opens_one t = 1.
Proof.
  induction toks as [|t toks IH]; cbn; intros H; [lia|]. destruct (opens_one t) as [|k] eqn:E.
  - destruct (IH H) as (b & u & r & -> & Hb & Hu). exists (t :: b), u, r. cbn. rewrite E. auto.
  - exists [], t, toks. split; [reflexivity|]. split; [reflexivity|]. destruct t as [| | | | | | | | |[| |]| |]; cbn in *; congruence.
Qed.
Theorem balanced_complete O defs start : rng_schema defs start -> in_limits defs start -> forall toks, accepts O defs start toks ->
  total closes_one toks = total opens_one toks -> 1 <= total opens_one toks ->
  exists before t content after, toks = before ++ (t :: content) ++ after /\ opens_one t = 1 /\
    Forall (fun x => opens_one x = 0 /\ closes_one x = 0) (before ++ after) /\
    total closes_one (t :: content) = total opens_one (t :: content) /\
    forall a b, t :: content = a ++ b -> a <> [] -> b <> [] -> total closes_one a < total opens_one a.
Proof.
  intros Hrng Hlim toks HA Heq Hone. destruct (accepted_fits O defs start Hrng Hlim toks HA) as [HF _]. clear HA Hrng Hlim.
  destruct (first_open toks Hone) as (before & t & rest & -> & Hb & Ht).
  pose proof (fits_le _ HF) as Hle. pose proof (Hle before _ eq_refl) as Hb0.
  assert (Hbc : total closes_one before = 0) by lia.
  destruct (first_balanced rest (before ++ [t])) as (r & after & -> & Hr & Hmin); [rewrite <- app_assoc; exact Heq|].
  assert (Hr' : total closes_one (t :: r) = total opens_one (t :: r)).
  { rewrite <- app_assoc in Hr; cbn [app] in Hr. rewrite !total_app in Hr. lia. }
  exists before, t, r, after. split; [reflexivity|]. split; [exact Ht|]. split; [|split; [exact Hr'|]].
  - assert (Hz : forall f l, total f l = 0 -> Forall (fun x => f x = 0) l).
    { intros f l; induction l as [|x l IH]; cbn; intros H; constructor; [lia | apply IH; lia]. }
    apply Forall_app; split.
    + apply Forall_forall. intros x Hx. split; [exact (proj1 (Forall_forall _ _) (Hz _ _ Hb) x Hx) | exact (proj1 (Forall_forall _ _) (Hz _ _ Hbc) x Hx)].
    + apply Forall_forall. intros x Hx.
      assert (Hgo : forall a2 a1, before ++ t :: r ++ after = (before ++ t :: r ++ a1) ++ a2 -> Forall (fun x => opens_one x = 0 /\ closes_one x = 0) a1 ->
        Forall (fun x => opens_one x = 0 /\ closes_one x = 0) a2).
      { induction a2 as [|y a2 IH]; intros a1 Hx1 Hf; [constructor|].
        destruct (HF _ _ _ Hx1) as [He Hs _ _].
        assert (Hbal : total closes_one (before ++ t :: r ++ a1) = total opens_one (before ++ t :: r ++ a1) /\ total opens_one (before ++ t :: r ++ a1) >= 1).
        { rewrite !total_app. change (t :: r ++ a1) with ((t :: r) ++ a1). rewrite !total_app, Hr'.
          assert (total opens_one a1 = 0 /\ total closes_one a1 = 0) as [-> ->] by (clear - Hf; induction Hf as [|? ? [? ?] _ [? ?]]; cbn; lia).
          cbn [total]. lia. }
        destruct Hbal as [Hbal Hge].
        assert (Hy : opens_one y = 0 /\ closes_one y = 0).
        { destruct y as [| | | | | | | | |[|p l|]| |]; cbn; auto; exfalso; [specialize (Hs eq_refl); lia | specialize (He p l eq_refl); lia | specialize (Hs eq_refl); lia]. }
        constructor; [exact Hy|]. apply (IH (a1 ++ [y])); [rewrite Hx1, <- !app_assoc; cbn; rewrite <- !app_assoc; reflexivity | apply Forall_app; auto]. }
      exact (proj1 (Forall_forall _ _) (Hgo after [] ltac:(rewrite app_nil_r, <- app_assoc; reflexivity) (Forall_nil _)) x Hx).
  - intros a b Hab Ha Hb'. destruct a as [|t0 a]; [contradiction|]. injection Hab as <- ->.
    assert (Hl : total closes_one (before ++ t :: a) <= total opens_one (before ++ t :: a)).
    { apply (Hle _ (b ++ after)). rewrite <- !app_assoc; cbn; rewrite <- ?app_assoc; reflexivity. }
    specialize (Hmin a b eq_refl Hb'). rewrite <- app_assoc in Hmin; cbn [app] in Hmin. rewrite !total_app in Hmin, Hl. lia.
Qed.
