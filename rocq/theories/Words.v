(** * Words: the white space separated words of a string, specified without a splitting function. *)
From Verif Require Import Base Spec.

(** [Words s ws]: [ws] are the maximal runs of characters of [s] that are not XML white space. *)
Inductive Words : str -> list str -> Prop :=
| Wd_nil s : blank s -> Words s []
| Wd_last b w : blank b -> w <> [] -> Forall (fun c => is_xml_ws c = false) w -> Words (b ++ w) [w]
| Wd_cons b w c r ws : blank b -> w <> [] -> Forall (fun c => is_xml_ws c = false) w -> is_xml_ws c = true -> Words r ws -> Words (b ++ w ++ c :: r) (w :: ws).

Lemma split_blank ws b s : Forall (fun c => ws c = true) b -> split_on ws [] (b ++ s) = split_on ws [] s.
Proof. induction 1 as [|c b H Hb IH]; [reflexivity|]. cbn. rewrite H. exact IH. Qed.
Lemma split_word ws w : Forall (fun c => ws c = false) w -> forall cur s, split_on ws cur (w ++ s) = split_on ws (rev w ++ cur) s.
Proof.
  induction 1 as [|c w H Hw IH]; intros cur s; [reflexivity|]. cbn. rewrite H, IH. rewrite <- app_assoc. reflexivity.
Qed.
Lemma Words_split s ws : Words s ws -> xml_split s = ws.
Proof.
  unfold xml_split. induction 1 as [s H|b w Hb Hw Hn|b w c r ws Hb Hw Hn Hc Hr IH].
  - rewrite <- (app_nil_r s). rewrite split_blank by exact H. reflexivity.
  - rewrite split_blank by exact Hb. rewrite <- (app_nil_r w) at 1. rewrite split_word by exact Hn. rewrite app_nil_r. cbn.
    destruct (rev w) as [|x y] eqn:E; [apply (f_equal (@rev N)) in E; rewrite rev_involutive in E; cbn in E; contradiction|]. rewrite <- E, rev_involutive. reflexivity.
  - rewrite split_blank by exact Hb. rewrite split_word by exact Hn. rewrite app_nil_r. cbn. rewrite Hc.
    destruct (rev w) as [|x y] eqn:E; [apply (f_equal (@rev N)) in E; rewrite rev_involutive in E; cbn in E; contradiction|]. rewrite <- E, rev_involutive, IH. reflexivity.
Qed.
Lemma Words_ex s : exists ws, Words s ws.
Proof.
  remember (length s) as n eqn:E. assert (Hn : length s <= n) by lia. clear E. revert s Hn.
  induction n as [|n IH]; intros s Hn.
  { destruct s; [|cbn in Hn; lia]. exists []; constructor; constructor. }
  assert (H1 : exists b t, s = b ++ t /\ blank b /\ match t with c :: _ => is_xml_ws c = false | [] => True end).
  { clear. induction s as [|c s (b & t & -> & Hb & Ht)]; [exists [], []; repeat split; constructor|].
    destruct (is_xml_ws c) eqn:E; [exists (c :: b), t; repeat split; [constructor; assumption | exact Ht]|].
    exists [], (c :: b ++ t). repeat split; [constructor | exact E]. }
  destruct H1 as (b & t & -> & Hb & Ht).
  assert (H2 : exists w u, t = w ++ u /\ Forall (fun c => is_xml_ws c = false) w /\ match u with c :: _ => is_xml_ws c = true | [] => True end).
  { clear. induction t as [|c s (w & u & -> & Hw & Hu)]; [exists [], []; repeat split; constructor|].
    destruct (is_xml_ws c) eqn:E; [exists [], (c :: w ++ u); repeat split; [constructor | exact E]|].
    exists (c :: w), u. repeat split; [constructor; assumption | exact Hu]. }
  destruct H2 as (w & u & -> & Hw & Hu).
  destruct w as [|x w].
  { destruct u as [|y u]; [|cbn in Ht; congruence]. cbn. exists []. constructor. rewrite app_nil_r; exact Hb. }
  destruct u as [|y u].
  { rewrite app_nil_r. eexists. apply Wd_last; [exact Hb | discriminate | exact Hw]. }
  destruct (IH u) as [ws Hws]; [rewrite !app_length in Hn; cbn in Hn; lia|].
  eexists. apply Wd_cons; [exact Hb | discriminate | exact Hw | exact Hu | exact Hws].
Qed.
Lemma split_Words s : Words s (xml_split s).
Proof. destruct (Words_ex s) as [ws H]. rewrite (Words_split _ _ H). exact H. Qed.
