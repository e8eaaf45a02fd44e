(** * TextFacts: the functions of the model on texts meet TextSpec; the exit status of the tool. *)
From Verif Require Import Base Datatype Facets Store Deriv Events Syntax Compile SchemaCompile SchemaMain Main Diag Tool ToolProof XmlSyntax TextSpec.
Local Open Scope N_scope.

Lemma utf8_width_ok c bs : Utf8 c bs -> utf8_width c = List.length bs.
Proof.
  intros H. destruct H as [c H|a b H1 H2|a b c H1 H2 H3 H4|a b c d H1 H2 H3 H4 H5]; unfold utf8_width; cbn [List.length].
  - destruct (N.ltb_spec c 128); [reflexivity | lia].
  - destruct (N.ltb_spec (a * 64 + b) 128); [lia|]. destruct (N.ltb_spec (a * 64 + b) 2048); [reflexivity | lia].
  - set (x := a * 4096 + b * 64 + c) in *. assert (x < 65536) by (unfold x; lia). destruct (N.ltb_spec x 128); [lia|]. destruct (N.ltb_spec x 2048); [lia|]. destruct (N.ltb_spec x 65536); [reflexivity | lia].
  - set (x := a * 262144 + b * 4096 + c * 64 + d) in *. destruct (N.ltb_spec x 128); [lia|]. destruct (N.ltb_spec x 2048); [lia|]. destruct (N.ltb_spec x 65536); [lia | reflexivity].
Qed.
Lemma utf8_exists c : c < 1114112 -> exists bs, Utf8 c bs.
Proof.
  intros H. destruct (N.lt_ge_cases c 128) as [H1|H1]; [eexists; apply U_one; exact H1|].
  pose proof (N.div_mod c 64 ltac:(lia)) as E0. pose proof (N.mod_lt c 64 ltac:(lia)) as M0.
  destruct (N.lt_ge_cases c 2048) as [H2|H2].
  { assert (E : c = (c / 64) * 64 + c mod 64) by lia. set (u := c mod 64) in *. set (q := c / 64) in *. clearbody u q. rewrite E. eexists. apply U_two; lia. }
  set (q := c / 64) in *. pose proof (N.div_mod q 64 ltac:(lia)) as E1. pose proof (N.mod_lt q 64 ltac:(lia)) as M1.
  destruct (N.lt_ge_cases c 65536) as [H3|H3].
  { assert (E : c = (q / 64) * 4096 + (q mod 64) * 64 + c mod 64) by lia. set (u := c mod 64) in *. clearbody u q. rewrite E. clear E. revert E1 M1. generalize (q mod 64) (q / 64). intros m1 d1 E1 M1. eexists. apply U_three; lia. }
  set (r := q / 64) in *. pose proof (N.div_mod r 64 ltac:(lia)) as E2. pose proof (N.mod_lt r 64 ltac:(lia)) as M2.
  assert (E : c = (r / 64) * 262144 + (r mod 64) * 4096 + (q mod 64) * 64 + c mod 64) by lia. set (u := c mod 64) in *. clearbody u r q. rewrite E. clear E. revert E1 M1 E2 M2. generalize (q mod 64) (r mod 64) (r / 64). intros m1 m2 d2 E1 M1 E2 M2. eexists. apply U_four; try lia.
Qed.
Lemma utf8_text s bs : Utf8_text s bs -> utf8_len s = List.length bs.
Proof. induction 1 as [|c s bs bs' H _ IH]; [reflexivity|]. cbn [utf8_len]. rewrite app_length, IH, (utf8_width_ok _ _ H). reflexivity. Qed.
Lemma utf8_text_exists s : Forall (fun c => c < 1114112) s -> exists bs, Utf8_text s bs /\ utf8_len s = List.length bs.
Proof.
  intros H. assert (G : exists bs, Utf8_text s bs).
  { induction H as [|c s Hc _ (bs' & IH)]; [exists []; constructor|]. destruct (utf8_exists c Hc) as (bs & Hb). exists (bs ++ bs'). constructor; assumption. }
  destruct G as (bs & G). exists bs. split; [exact G | exact (utf8_text _ _ G)].
Qed.
Lemma white_space_ok c : is_uni_ws c = true <-> In c white_space_table.
Proof.
  split.
  - intros H. unfold is_uni_ws in H. repeat (apply orb_prop in H as [H|H]); try (apply N.eqb_eq in H; subst c; cbn; tauto);
      apply andb_prop in H as [H1 H2]; apply N.leb_le in H1, H2.
    + assert (c = 9 \/ c = 10 \/ c = 11 \/ c = 12 \/ c = 13) as K by lia. cbn. intuition.
    + assert (c = 8192 \/ c = 8193 \/ c = 8194 \/ c = 8195 \/ c = 8196 \/ c = 8197 \/ c = 8198 \/ c = 8199 \/ c = 8200 \/ c = 8201 \/ c = 8202) as K by lia. cbn. intuition.
  - intros H. assert (K : forallb is_uni_ws white_space_table = true) by (vm_compute; reflexivity). rewrite forallb_forall in K. exact (K c H).
Qed.

(** ** Lines *)
Lemma lines_from_lf l : ~ In 10 l -> forall cur r, lines_from cur (l ++ 10 :: r) = lines_from (rev l ++ cur) (10 :: r).
Proof.
  induction l as [|c l IH]; intros H cur r; [reflexivity|]. cbn [app lines_from rev]. destruct (N.eqb_spec c 10) as [->|Hc]; [destruct H; left; reflexivity|].
  rewrite IH by (intros K; apply H; right; exact K). rewrite <- app_assoc. reflexivity.
Qed.
Lemma lines_from_last l : ~ In 10 l -> forall cur, lines_from cur l = match rev l ++ cur with [] => [] | k => [rev k] end.
Proof.
  induction l as [|c l IH]; intros H cur; [destruct cur; reflexivity|]. cbn [lines_from rev]. destruct (N.eqb_spec c 10) as [->|Hc]; [destruct H; left; reflexivity|].
  rewrite IH by (intros K; apply H; right; exact K). rewrite <- app_assoc. reflexivity.
Qed.
Lemma lines_ok text ls : Lines text ls -> lines text = ls.
Proof.
  unfold lines. induction 1 as [|l Hl Hn|l r ls Hn Hc _ IH|l r ls Hn _ IH].
  - reflexivity.
  - rewrite lines_from_last by exact Hn. rewrite app_nil_r. destruct (rev l) as [|x k] eqn:E; [apply (f_equal (@rev N)) in E; rewrite rev_involutive in E; contradiction|]. rewrite <- E, rev_involutive. reflexivity.
  - rewrite lines_from_lf by exact Hn. rewrite app_nil_r. cbn [lines_from]. change (10 =? 10) with true. cbn iota. rewrite IH. f_equal.
    destruct (rev l) as [|x k] eqn:E; [apply (f_equal (@rev N)) in E; rewrite rev_involutive in E; subst; reflexivity|].
    destruct (N.eqb_spec x 13) as [->|]; [|rewrite <- E; apply rev_involutive]. exfalso. apply (Hc (rev k)). apply (f_equal (@rev N)) in E. rewrite rev_involutive in E. exact E.
  - replace (l ++ 13 :: 10 :: r) with ((l ++ [13]) ++ 10 :: r) by (rewrite <- app_assoc; reflexivity). rewrite lines_from_lf by (intros K; apply in_app_or in K as [K|[K|[]]]; [exact (Hn K) | discriminate K]).
    rewrite app_nil_r, rev_app_distr. cbn [rev app lines_from]. change (10 =? 10) with true. change (13 =? 13) with true. cbn iota. rewrite IH, rev_involutive. reflexivity.
Qed.
Lemma lines_exist text : exists ls, Lines text ls.
Proof.
  induction text as [text IH] using (induction_ltof1 _ (@List.length N)). unfold ltof in IH.
  destruct (in_dec N.eq_dec 10 text) as [H|H].
  - assert (G : exists l r, text = l ++ 10 :: r /\ ~ In 10 l).
    { clear IH. induction text as [|c t IHt]; [destruct H|]. destruct (N.eq_dec c 10) as [->|Hc]; [exists [], t; split; [reflexivity | intros []]|].
      destruct H as [H|H]; [congruence|]. destruct (IHt H) as (l & r & -> & Hl). exists (c :: l), r. split; [reflexivity|]. intros [K|K]; [congruence | exact (Hl K)]. }
    destruct G as (l & r & -> & Hl). destruct (IH r) as (ls & Hr); [rewrite app_length; cbn; lia|].
    destruct l as [|x l'] using rev_ind; [exists ([] :: ls); apply (Ln_lf [] r ls); [intros [] | intros [|? ?]; discriminate | exact Hr]|].
    destruct (N.eq_dec x 13) as [->|Hx].
    + exists (l' :: ls). rewrite <- app_assoc. cbn [app]. apply Ln_crlf; [intros K; apply Hl, in_or_app; left; exact K | exact Hr].
    + exists ((l' ++ [x]) :: ls). apply Ln_lf; [exact Hl | intros l'' K; apply app_inj_tail in K as [_ K]; congruence | exact Hr].
  - destruct text as [|c t]; [exists []; constructor|]. exists [c :: t]. apply Ln_last; [discriminate | exact H].
Qed.
Lemma error_fold ls : forall acc len, fold_left (fun '(acc, _) line => (acc + List.length line, List.length line))%nat ls (acc, len) =
  ((acc + total_length ls)%nat, match rev ls with [] => len | l :: _ => List.length (l : str) end).
Proof.
  induction ls as [|l ls IH]; intros acc len; [cbn; f_equal; unfold total_length; cbn; lia|]. cbn [fold_left]. rewrite IH. f_equal; [unfold total_length; cbn [map]; change (list_sum (List.length l :: map (@List.length N) ls)) with (List.length l + list_sum (map (@List.length N) ls))%nat; lia|].
  cbn [rev]. destruct (rev ls); reflexivity.
Qed.
(** the last of the first [row] lines *)
Lemma error_span_ok text ls row col s e : Lines text ls ->
  (error_span text row col = Some (s, e) <->
   exists len, len = match rev (firstn row ls) with [] => 0%nat | l :: _ => List.length l end /\ (col <= len)%nat /\ s = (total_length (firstn row ls) + col)%nat /\ e = (len - col)%nat).
Proof.
  intros HL. unfold error_span. rewrite (lines_ok _ _ HL), error_fold, Nat.add_0_l. cbv beta iota. set (len := match rev (firstn row ls) with [] => 0%nat | l :: _ => List.length l end).
  match goal with |- context [(col <=? ?x)%nat] => change x with len end.
  destruct (Nat.leb_spec col len) as [H|H]; split.
  - intros E; injection E as <- <-. exists len; auto.
  - intros (l & -> & _ & -> & ->). reflexivity.
  - discriminate.
  - intros (l & -> & K & _). lia.
Qed.

(** ** The exit status *)
Section Status.
Variables (O : oracles) (C : coracles) (order : list pat -> list pat).
(** the process ends with the status [k] *)
Definition exits (fs : filesys) (name : path) (docs : list (option document)) (k : nat) : Prop := exists r, settles (tool O C order fs name docs) r /\ status r = Some k.
Lemma exits_code fs name docs k : (k < 3)%nat -> (exits fs name docs k <-> settles (tool O C order fs name docs) (Ok k)).
Proof.
  intros Hk. split.
  - intros (r & Hr & Hs). destruct r as [n|p|]; [injection Hs as ->; exact Hr | injection Hs as <-; lia | discriminate Hs].
  - intros H. exists (Ok k). split; [exact H | reflexivity].
Qed.
Lemma exits_codes fs name docs k : exits fs name docs k -> k = 0%nat \/ k = 1%nat \/ k = 2%nat \/ k = 101%nat.
Proof.
  intros (r & Hr & Hs). destruct r as [n|p|]; [injection Hs as ->; destruct (exit_codes _ _ _ _ _ _ _ Hr) as [H|[H|H]]; auto | injection Hs as <-; auto | discriminate Hs].
Qed.
Lemma exits_zero fs name docs : exits fs name docs 0 <-> exists r st, compiles O C fs name r st /\ Forall (passes O (cell_defs st) (start_of r st)) docs.
Proof. rewrite exits_code by lia. apply exit_zero. Qed.
Lemma exits_crash fs name docs : exits fs name docs 101 <-> exists p, settles (tool O C order fs name docs) (Panic p).
Proof.
  split.
  - intros (r & Hr & Hs). destruct r as [n|p|]; [|exists p; exact Hr | discriminate Hs]. injection Hs as ->. destruct (exit_codes _ _ _ _ _ _ _ Hr) as [H|[H|H]]; discriminate H.
  - intros (p & H). exists (Panic p). split; [exact H | reflexivity].
Qed.
(** a document that cannot be read, after documents that pass *)
Lemma exits_unreadable fs name r st pre post : compiles O C fs name r st -> Forall (passes O (cell_defs st) (start_of r st)) pre -> exits fs name (pre ++ None :: post) 101.
Proof.
  intros [n H] HF. apply exits_crash. exists PUnwrapNone. destruct (docs_pass O order _ _ _ HF) as [n' H']. exists (n + n')%nat. intros m L. unfold tool. rewrite (H m) by lia. cbn. rewrite H' by lia. reflexivity.
Qed.
End Status.
