(** * SchemaEscape: [parent] outside of every nested grammar, external patterns included (C71). *)
From Coq Require Import String.
From Verif Require Import Base Datatype Facets Store Lang Compile Syntax SchemaCompile SourceSpec SourceCompile SchemaSpec SchemaVisit SchemaAttr SchemaReach SchemaCheck.

(** ** Specification.  [Escapes fs f p]: pattern [p] of file [f] has a [parent] outside of nested grammars; external patterns are looked into *)
Inductive Escapes (fs : filesys) : path -> spat -> Prop :=
| Es_here f i : Escapes fs f (SParent i)
| Es_child f p q : child q p -> Escapes fs f q -> Escapes fs f p
| Es_external f h i f' ds q : resolve f (lit_value h) = Some f' -> fs f' = inl (Schema ds (TPattern q)) -> Escapes fs f' q -> Escapes fs f (SExternal h i).
(** [p] is the body of a definition of these contents: in a [div], or overriding, but not in a nested grammar *)
Inductive top_body (p : spat) : gcontent -> Prop :=
| Tb_define n how : top_body p (GDefine n how p)
| Tb_div g l : In g l -> top_body p g -> top_body p (GDiv l)
| Tb_override h inh l n how : In (IDefine n how p) l -> top_body p (GInclude h inh (Some l)).

Section Escape.
Variable O : oracles.
Variable C : coracles.
Variable fs : filesys.
Notation rp_ d := (fst (nested O C fs d)).
Notation ri_ d := (snd (nested O C fs d)).
Lemma child_bare rp ri c p st X st' q : compile_pattern O C fs rp ri c p st = fok (X, st') -> child q p -> bare c ->
  exists c' st0 Y st1, compile_pattern O C fs rp ri c' q st0 = fok (Y, st1) /\ bare c' /\ file_of c' = file_of c.
Proof.
  intros H Hc Hp. destruct Hc; cbn [SchemaCompile.compile_pattern] in H;
    try (cinv H; eexists c, _, _, _; split; [eassumption|]; split; [exact Hp | reflexivity]).
  - cinv H. cinv H. unfold new_element in E0. destruct (parent_attribute c); [cbad E0|]. cret E0. cinv H. eexists (XElement c), _, _, _. split; [eassumption|]. split; [exact Hp | reflexivity].
  - cinv H. cinv H. eexists (XAttribute c), _, _, _. split; [exact E0|]. split; [exact Hp | reflexivity].
  - eexists c, _, _, _. split; [eassumption|]. split; [exact Hp | reflexivity].
  - cinv H. cinv H. eexists c, _, _, _. split; [eassumption|]. split; [exact Hp | reflexivity].
  - cinv H. cinv H. eexists c, _, _, _. split; [eassumption|]. split; [exact Hp | reflexivity].
  - cinv H. cinv H. eexists c, _, _, _. split; [eassumption|]. split; [exact Hp | reflexivity].
  - cinv H. cinv H. cinv H. cinv E1. eexists c, _, _, _. split; [eassumption|]. split; [exact Hp | reflexivity].
Qed.
Lemma no_escape f p : Escapes fs f p -> forall d c st X st', bare c -> file_of c = Some f -> compile_pattern O C fs (rp_ d) (ri_ d) c p st <> fok (X, st').
Proof.
  induction 1 as [f i|f p q Hc _ IH|f h i f' ds q Hr Hs _ IH]; intros d c st X st' Hp Hf H.
  - cbn [SchemaCompile.compile_pattern] in H. cinv H. exact (bare_parent _ _ _ _ _ Hp E).
  - destruct (child_bare _ _ _ _ _ _ _ _ H Hc Hp) as (c' & st0 & Y & st1 & H' & Hp' & Hf'). eapply IH; [exact Hp' | rewrite Hf'; exact Hf | exact H'].
  - cbn [SchemaCompile.compile_pattern] in H. destruct i as [j|]; [cbad H|].
    cinv H. unfold path_from in E. rewrite Hf, Hr in E. cret E.
    cinv H. apply cmap_err_ok, get_schema_ok in E. destruct E as (Es & _). assert (x0 = Schema ds (TPattern q)) by congruence. subst x0.
    cinv H. apply new_include_ok in E. destruct E as (-> & _). cbn [s_top] in H. apply cmap_err_ok in H.
    destruct d as [|d]; [cbn in H; cbad H|]. cbn [nested] in H. pose proof (IH d) as K. destruct (nested O C fs d) as [rp ri]. cbn [fst snd] in *. eapply K; [| |exact H]; [exact Hp | reflexivity].
Qed.
Lemma content_escape d f p g : top_body p g -> Escapes fs f p -> forall c st st', bare c -> file_of c = Some f -> compile_content O C fs (rp_ d) (ri_ d) c g st = fok (tt, st') -> False.
Proof.
  intros Hg HE. revert g Hg. fix IH 2. intros g Hg c st st' HB Hf H. destruct Hg as [n how|g l Hin Hg|h inh l n how Hin]; cbn [SchemaCompile.compile_content] in H.
  - cinv H. eapply (no_escape _ _ HE d (XDefine c n)); [exact HB | exact Hf | exact E].
  - destruct (citer_in _ _ _ Hin _ _ H) as (st2 & st3 & K). exact (IH g Hg _ _ _ HB Hf K).
  - cinv H. cinv H. cinv H. apply new_include_ok in E1. destruct E1 as (-> & _). cinv H. apply inherit_ok in E1; [|exact I]. destruct E1 as [ns0 ->]. cinv H. destruct x1.
    destruct (citer_in _ _ _ Hin _ _ E1) as (st6 & st7 & K). apply cmap_err_ok in K. cbn [SchemaCompile.compile_override] in K. cinv K.
    refine (no_escape _ _ HE d _ _ _ _ _ _ E2); [exact HB | exact Hf].
Qed.
Variable name : path.
Theorem no_outer_escape d r st : compile_grammar O C fs d name = fok (r, st) -> forall f, Outer fs name f -> forall s l, fs f = inl s -> (f = name -> exists ds, s = Schema ds (TGrammar l)) -> file_contents s l ->
  forall g p, In g l -> top_body p g -> ~ Escapes fs f p.
Proof.
  intros H f HO s l Hs Hn Hc g p Hg Hp HE. destruct (outer_visited _ _ _ _ _ _ _ H f HO s l Hs Hn Hc) as (d1 & c & st1 & st2 & HB & Hf & HK). destruct (citer_in _ _ _ Hg _ _ HK) as (st3 & st4 & K).
  exact (content_escape d1 _ _ g Hp HE _ _ _ HB Hf K).
Qed.
Theorem no_root_escape d r st ds p : compile_grammar O C fs d name = fok (r, st) -> fs name = inl (Schema ds (TPattern p)) -> ~ Escapes fs name p.
Proof.
  intros H Hs Hp. unfold compile_grammar in H. cinv H. apply get_schema_ok in E. destruct E as (Es & _). assert (x = Schema ds (TPattern p)) by congruence. subst x.
  cinv H. unfold new_root in E. cinv E. cret E. pose proof (no_escape _ _ Hp d) as K. destruct (nested O C fs d) as [rp ri] eqn:En. cinv H. unfold compile_schema_with in E. cinv E. apply declarations_ok in E1; [|exact I]. destruct E1 as [-> (ns & dt & -> & _)]. cbn [with_decls s_top is_include] in *.
  cinv E. refine (K _ _ _ _ _ _ E1); [exact I | reflexivity].
Qed.
End Escape.
