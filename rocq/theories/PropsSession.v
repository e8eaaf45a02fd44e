(** * PropsSession: one compiler used for several schemas, while files may change (C87). *)
From Coq Require Import String.
From Verif Require Import Base Datatype Facets Store Compile Syntax SchemaCompile SourceSpec SchemaSpec SchemaExamples Session SessionProof.

(** ** C87: [disk t f] is what reading file [f] gives at moment [t]; a compiler made at moment [t0] has been used in any way ([Later]: any calls, any waiting) *)

(** each call answers as a fresh compiler on one file system would: files read by earlier calls as they were read then, every other file as at one moment of the call *)
Theorem C87_snapshot : forall O C disk t0 w d name r w', Later O C disk (new_compiler t0) w -> dcompile O C disk d name w = (r, w') ->
  exists fs, compile_grammar O C fs d name = r /\
    forall f, (exists s, In (f, s) (cache w) /\ fs f = inl s) \/ (~ In f (files_loaded w) /\ exists t, clock w <= t <= clock w' /\ fs f = disk t f).
Proof. exact call_snapshot. Qed.
(** while the files do not change, what was compiled before does not matter *)
Theorem C87_history : forall O C disk fs, (forall t f, disk t f = fs f) -> forall t0 w d name, Later O C disk (new_compiler t0) w ->
  fst (dcompile O C disk d name w) = compile_grammar O C fs d name.
Proof. exact history_irrelevant. Qed.
(** [Compiler::loaded] after a successful call: the files listed before, and those this schema is made of; each once *)
Theorem C87_listed : forall O C disk t0 w d name r st w', Later O C disk (new_compiler t0) w -> dcompile O C disk d name w = (Ok (inl (r, st)), w') ->
  NoDup (files_loaded w') /\ forall f, In f (files_loaded w') <-> In f (files_loaded w) \/ In f (loaded st).
Proof. exact listed_files. Qed.
(** a listed file has once been read with the contents the compiler uses *)
Theorem C87_read : forall O C disk t0 w, Later O C disk (new_compiler t0) w -> forall f s, In (f, s) (cache w) -> exists t, t0 <= t < clock w /\ disk t f = inl s.
Proof. exact cache_true. Qed.
(** a schema that has been compiled once is compiled to the same result ever after, even when its files have changed *)
Theorem C87_repeated : forall O C disk t0 w d name r st w1 w2 r2 w3, Later O C disk (new_compiler t0) w -> dcompile O C disk d name w = (Ok (inl (r, st)), w1) -> Later O C disk w1 w2 ->
  dcompile O C disk d name w2 = (r2, w3) -> r2 = Ok (inl (r, st)).
Proof. exact repeated. Qed.

(** a.rnc includes b.rnc; both change at moment 1 *)
Definition a_old : schema := Schema [] (TGrammar [GInclude (lt "b.rnc") None None]).
Definition a_new : schema := Schema [] (TGrammar [def "start" (tag "new" SText)]).
Definition b_old : schema := Schema [] (TGrammar [def "start" (tag "x" SText)]).
Definition b_new : schema := Schema [] (TGrammar [def "start" (tag "y" SText)]).
Definition edited (t : nat) : filesys := if t <? 1 then files [(P "a.rnc", a_old); (P "b.rnc", b_old)] else files [(P "a.rnc", a_new); (P "b.rnc", b_new)].
(** Refuted: a call sees the files as they were at one moment *)
Theorem C87_one_moment_refuted : exists disk d name, forall O C r w, dcompile O C disk d name (new_compiler 0) = (r, w) -> (exists x, r = Ok (inl x)) /\ forall t, compile_grammar O C (disk t) d name <> r.
Proof.
  exists edited, 5, (P "a.rnc"). intros O C r w H. vm_compute in H. injection H as <- _. split; [eexists; reflexivity|].
  intros t. unfold edited. destruct (t <? 1); vm_compute; discriminate.
Qed.
(** Refuted: a call after an edit sees the edited files *)
Definition later_edited (t : nat) : filesys := if t <? 2 then files [(P "a.rnc", a_old); (P "b.rnc", b_old)] else files [(P "a.rnc", a_new); (P "b.rnc", b_new)].
Theorem C87_edit_refuted : exists disk d name, forall O C r1 w1 r2 w2, dcompile O C disk d name (new_compiler 0) = (r1, w1) -> dcompile O C disk d name w1 = (r2, w2) ->
  (exists x, r2 = Ok (inl x)) /\ forall t, clock w1 <= t -> compile_grammar O C (disk t) d name <> r2.
Proof.
  exists later_edited, 5, (P "a.rnc"). intros O C r1 w1 r2 w2 H H2. vm_compute in H. injection H as <- <-. vm_compute in H2. injection H2 as <- _. split; [eexists; reflexivity|].
  intros t Ht. cbn [clock] in Ht. unfold later_edited. destruct (Nat.ltb_spec t 2); [lia|]. vm_compute. discriminate.
Qed.
(** a file that could not be read is read again by the next call, the others are not *)
Definition late (t : nat) : filesys := if t <? 2 then files [(P "a.rnc", a_old)] else files [(P "a.rnc", a_new); (P "b.rnc", b_new)].
Example C87_instance O C : exists e w1 x w2, dcompile O C late 5 (P "a.rnc") (new_compiler 0) = (Ok (inr e), w1) /\ files_loaded w1 = [P "a.rnc"] /\
  dcompile O C late 5 (P "a.rnc") w1 = (Ok (inl x), w2) /\ files_loaded w2 = [P "b.rnc"; P "a.rnc"] /\ compile_grammar O C (files [(P "a.rnc", a_old); (P "b.rnc", b_new)]) 5 (P "a.rnc") = Ok (inl x) /\
  Later O C late (new_compiler 0) w1.
Proof.
  eexists _, (World [(P "a.rnc", a_old)] 2), _, _. split; [vm_compute; reflexivity|]. split; [reflexivity|]. split; [vm_compute; reflexivity|]. split; [reflexivity|]. split; [vm_compute; reflexivity|].
  eapply (Lt_call O C late _ 5 (P "a.rnc")); [|apply Lt_refl]. vm_compute. reflexivity.
Qed.

Print Assumptions C87_snapshot.
Print Assumptions C87_history.
Print Assumptions C87_listed.
Print Assumptions C87_read.
Print Assumptions C87_repeated.
Print Assumptions C87_one_moment_refuted.
Print Assumptions C87_edit_refuted.
