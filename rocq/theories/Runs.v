(** * Runs: the words of a string for any notion of white space, specified without a splitting function. *)
From Verif Require Import Base Spec.

(** [Runs sp s ws]: [ws] are the maximal runs of characters of [s] outside [sp]. *)
Inductive Runs (sp : N -> bool) : str -> list str -> Prop :=
| Rn_nil s : Forall (fun c => sp c = true) s -> Runs sp s []
| Rn_last b w : Forall (fun c => sp c = true) b -> w <> [] -> Forall (fun c => sp c = false) w -> Runs sp (b ++ w) [w]
| Rn_cons b w c r ws : Forall (fun c => sp c = true) b -> w <> [] -> Forall (fun c => sp c = false) w -> sp c = true ->
    Runs sp r ws -> Runs sp (b ++ w ++ c :: r) (w :: ws).

Lemma runs_blank sp b s : Forall (fun c => sp c = true) b -> split_on sp [] (b ++ s) = split_on sp [] s.
Proof. induction 1 as [|c b H Hb IH]; [reflexivity|]. cbn. rewrite H. exact IH. Qed.
Lemma runs_word sp w : Forall (fun c => sp c = false) w -> forall cur s, split_on sp cur (w ++ s) = split_on sp (rev w ++ cur) s.
Proof.
  induction 1 as [|c w H Hw IH]; intros cur s; [reflexivity|]. cbn. rewrite H, IH. rewrite <- app_assoc. reflexivity.
Qed.
Lemma Runs_split sp s ws : Runs sp s ws -> split_on sp [] s = ws.
Proof.
  induction 1 as [s H|b w Hb Hw Hn|b w c r ws Hb Hw Hn Hc Hr IH].
  - rewrite <- (app_nil_r s). rewrite runs_blank by exact H. reflexivity.
  - rewrite runs_blank by exact Hb. rewrite <- (app_nil_r w) at 1. rewrite runs_word by exact Hn. rewrite app_nil_r. cbn.
    destruct (rev w) as [|x y] eqn:E; [apply (f_equal (@rev N)) in E; rewrite rev_involutive in E; cbn in E; contradiction|]. rewrite <- E, rev_involutive. reflexivity.
  - rewrite runs_blank by exact Hb. rewrite runs_word by exact Hn. rewrite app_nil_r. cbn. rewrite Hc.
    destruct (rev w) as [|x y] eqn:E; [apply (f_equal (@rev N)) in E; rewrite rev_involutive in E; cbn in E; contradiction|]. rewrite <- E, rev_involutive, IH. reflexivity.
Qed.
Lemma Runs_ex sp s : exists ws, Runs sp s ws.
Proof.
  remember (length s) as n eqn:E. assert (Hn : length s <= n) by lia. clear E. revert s Hn.
  induction n as [|n IH]; intros s Hn.
  { destruct s; [|cbn in Hn; lia]. exists []; constructor; constructor. }
  assert (H1 : exists b t, s = b ++ t /\ Forall (fun c => sp c = true) b /\ match t with c :: _ => sp c = false | [] => True end).
  { clear. induction s as [|c s (b & t & -> & Hb & Ht)]; [exists [], []; repeat split; constructor|].
    destruct (sp c) eqn:E; [exists (c :: b), t; repeat split; [constructor; assumption | exact Ht]|].
    exists [], (c :: b ++ t). repeat split; [constructor | exact E]. }
  destruct H1 as (b & t & -> & Hb & Ht).
  assert (H2 : exists w u, t = w ++ u /\ Forall (fun c => sp c = false) w /\ match u with c :: _ => sp c = true | [] => True end).
  { clear. induction t as [|c s (w & u & -> & Hw & Hu)]; [exists [], []; repeat split; constructor|].
    destruct (sp c) eqn:E; [exists [], (c :: w ++ u); repeat split; [constructor | exact E]|].
    exists (c :: w), u. repeat split; [constructor; assumption | exact Hu]. }
  destruct H2 as (w & u & -> & Hw & Hu).
  destruct w as [|x w].
  { destruct u as [|y u]; [|cbn in Ht; congruence]. cbn. exists []. constructor. rewrite app_nil_r; exact Hb. }
  destruct u as [|y u].
  { rewrite app_nil_r. eexists. apply Rn_last; [exact Hb | discriminate | exact Hw]. }
  destruct (IH u) as [ws Hws]; [rewrite !app_length in Hn; cbn in Hn; lia|].
  eexists. apply Rn_cons; [exact Hb | discriminate | exact Hw | exact Hu | exact Hws].
Qed.
Lemma Runs_fun sp s ws ws' : Runs sp s ws -> Runs sp s ws' -> ws = ws'.
Proof. intros H H'. apply Runs_split in H, H'. congruence. Qed.
Lemma split_Runs sp s : Runs sp s (split_on sp [] s).
Proof. destruct (Runs_ex sp s) as [ws H]. rewrite (Runs_split _ _ _ H). exact H. Qed.
