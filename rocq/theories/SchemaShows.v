(** * SchemaShows: no element is reached inside an attribute, external patterns included (C57). *)
From Coq Require Import String.
From Verif Require Import Base Datatype Facets Store Lang Compile Syntax SchemaCompile SourceSpec SourceCompile SchemaSpec SchemaAttr SchemaReach SchemaGood.

Section Shows.
Variable O : oracles.
Variable C : coracles.
Variable fs : filesys.
Notation rp_ d := (fst (nested O C fs d)).
Notation ri_ d := (snd (nested O C fs d)).

Lemma child_file rp ri c p st X st' q : compile_pattern O C fs rp ri c p st = fok (X, st') -> child q p -> parent_attribute c = true ->
  exists c' st0 Y st1, compile_pattern O C fs rp ri c' q st0 = fok (Y, st1) /\ parent_attribute c' = true /\ file_of c' = file_of c.
Proof.
  intros H Hc Hp. destruct Hc; cbn [SchemaCompile.compile_pattern] in H;
    try (cinv H; eexists c, _, _, _; split; [eassumption|]; split; [exact Hp | reflexivity]).
  - cinv H. cinv H. unfold new_element in E0. rewrite Hp in E0. cbad E0.
  - cinv H. cinv H. eexists (XAttribute c), _, _, _. split; [exact E0|]. split; reflexivity.
  - eexists c, _, _, _. split; [eassumption|]. split; [exact Hp | reflexivity].
  - cinv H. cinv H. eexists c, _, _, _. split; [eassumption|]. split; [exact Hp | reflexivity].
  - cinv H. cinv H. eexists c, _, _, _. split; [eassumption|]. split; [exact Hp | reflexivity].
  - cinv H. cinv H. eexists c, _, _, _. split; [eassumption|]. split; [exact Hp | reflexivity].
  - cinv H. cinv H. cinv H. cinv E1. eexists c, _, _, _. split; [eassumption|]. split; [exact Hp | reflexivity].
Qed.
Lemma no_shows f p : Shows fs f p -> forall d c st X st', parent_attribute c = true -> file_of c = Some f -> compile_pattern O C fs (rp_ d) (ri_ d) c p st <> fok (X, st').
Proof.
  induction 1 as [f nc x|f p q Hc _ IH|f h i f' ds q Hr Hs _ IH]; intros d c st X st' Hp Hf H.
  - cbn [SchemaCompile.compile_pattern] in H. cinv H. cinv H. unfold new_element in E0. rewrite Hp in E0. cbad E0.
  - destruct (child_file _ _ _ _ _ _ _ _ H Hc Hp) as (c' & st0 & Y & st1 & H' & Hp' & Hf'). eapply IH; [exact Hp' | rewrite Hf'; exact Hf | exact H'].
  - cbn [SchemaCompile.compile_pattern] in H. destruct i as [j|]; [cbad H|].
    cinv H. unfold path_from in E. rewrite Hf, Hr in E. cret E.
    cinv H. apply cmap_err_ok, get_schema_ok in E. destruct E as (Es & _). assert (x0 = Schema ds (TPattern q)) by congruence. subst x0.
    cinv H. apply new_include_ok in E. destruct E as (-> & _). cbn [s_top] in H. apply cmap_err_ok in H.
    destruct d as [|d]; [cbn in H; cbad H|]. cbn [nested] in H. pose proof (IH d) as K. destruct (nested O C fs d) as [rp ri]. cbn [fst snd] in *. eapply K; [| |exact H]; [exact Hp | reflexivity].
Qed.
Theorem no_element_shown name d r st : compile_grammar O C fs d name = fok (r, st) ->
  forall home ds f s, Consulted fs name home ds f s -> forall nc p, file_occurs (SAttribute nc p) s -> ~ Shows fs home p.
Proof.
  intros H home ds f s HC nc p Ho HS. destruct (consulted_fine O C fs name d r st H home ds f s HC) as (d' & K & _).
  destruct (proj2 (proj2 (K _ Ho))) as (c & s0 & X & s1 & Hp & Hf & Hx). eapply no_shows; eassumption.
Qed.
End Shows.
