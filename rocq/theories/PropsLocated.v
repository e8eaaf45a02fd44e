(** * PropsLocated: the property theorems on source positions (C58). *)
From Coq Require Import String.
From Verif Require Import Base Datatype Facets Store Compile Syntax SchemaCompile SchemaMain SchemaExamples SchemaTerm Located LocatedProof.

(** ** C58: converting the positions of a schema never panics: when every position lies in its own file, compiling
    with positions has the result of compiling without.
    Missing: a file named by [external] that is a grammar without the keyword ([C58_external_refuted]) and the errors
    about [parent], where the position of one file is taken in another ([C58_parent_refuted]). *)
Theorem C58_positions_partial : forall O C fs flen, positions_ok fs flen -> externals_are_patterns fs -> forall d name,
  lcompile_grammar O C fs flen d name = compile_grammar O C (erase_files fs) d name \/
  (lcompile_grammar O C fs flen d name = Panic PSubspan /\ exists e, compile_grammar O C (erase_files fs) d name = ferr e /\ parent_error e).
Proof. exact positions_harmless. Qed.
Print Assumptions C58_positions_partial.

Definition lfiles (l : list (path * (lschema * N))) : lfilesys :=
  fun f => match find (fun x => path_eqb (fst x) f) l with Some (_, (s, _)) => inl s | None => inr 0 end.
Definition llen (l : list (path * (lschema * N))) (f : path) : N :=
  match find (fun x => path_eqb (fst x) f) l with Some (_, (_, n)) => n | None => 0%N end.
Ltac any_ldepth := let d := fresh "d" in let H := fresh in intros d H; destruct d as [|d]; [inversion H|]; 
  unfold lcompile_grammar; cbn [lnested]; destruct (lnested _ _ _ _ d) as [?rp ?ri]; vm_compute; reflexivity.
Definition el_nm (s : string) : lnc := LName (NmId (IKId (lit s))) (0, 0)%N.

(** a.rnc: [include "b.rnc" { x = element x { empty } | y }  start = x]; b.rnc: [x = empty    y = external "c.rnc"];
    c.rnc: [element c { text }] (lengths and offsets up to layout) *)
Definition loc_list : list (path * (lschema * N)) := [
  (P "a.rnc", (LSchema [] (LTGrammar [LInclude (8, 15)%N (lt "b.rnc") None (Some [LIDefine (18, 19)%N (lit "x") MAssign (LChoicePair (LElement (22, 40)%N (el_nm "x") LEmpty) (LIdent (43, 44)%N (lit "y")))]); LDefine (47, 52)%N (lit "start") MAssign (LIdent (55, 56)%N (lit "x"))]), 57%N));
  (P "b.rnc", (LSchema [] (LTGrammar [LDefine (0, 1)%N (lit "x") MAssign LEmpty; LDefine (12, 13)%N (lit "y") MAssign (LExternal (25, 32)%N (lt "c.rnc") None)]), 33%N));
  (P "c.rnc", (LSchema [] (LTPattern (LElement (0, 18)%N (el_nm "c") LText)), 19%N))].
Definition fit_entry (x : path * (lschema * N)) : bool :=
  forallb (fun sp => (fst sp <=? snd sp)%N && (snd sp <=? snd (snd x))%N) (top_spans (ls_top (fst (snd x)))).
Lemma lfiles_positions l : forallb fit_entry l = true -> positions_ok (lfiles l) (llen l).
Proof.
  intros H f s E a b I. unfold lfiles in E. unfold llen. destruct (find (fun x => path_eqb (fst x) f) l) as [[g [s' n]]|] eqn:F; [|discriminate E].
  injection E as ->. apply find_some in F as [F _]. rewrite forallb_forall in H. apply H in F. unfold fit_entry in F. rewrite forallb_forall in F.
  apply F in I. cbn in I. apply andb_true_iff in I as [I1 I2]. apply N.leb_le in I1, I2. lia.
Qed.
Lemma lfiles_externals l : (forall x h f' s' , In x l -> In h (top_externals (ls_top (fst (snd x)))) -> resolve (fst x) (lit_value h) = Some f' -> lfiles l f' = inl s' -> exists p, ls_top s' = LTPattern p) ->
  externals_are_patterns (lfiles l).
Proof.
  intros H f s h f' s' E I R E'. unfold lfiles in E. destruct (find (fun x => path_eqb (fst x) f) l) as [[g [s0 n]]|] eqn:F; [|discriminate E].
  injection E as ->. apply find_some in F as [F K]. unfold path_eqb in K. cbn in K. destruct (path_eq_dec g f) as [->|]; [|discriminate K].
  eapply (H _ h f' s' F); eauto.
Qed.
Lemma loc_positions : positions_ok (lfiles loc_list) (llen loc_list).
Proof. apply lfiles_positions. vm_compute. reflexivity. Qed.
Lemma loc_externals : externals_are_patterns (lfiles loc_list).
Proof.
  apply lfiles_externals. intros x h f' s' [<-|[<-|[<-|[]]]] I R E'; cbn in I; try contradiction.
  destruct I as [<-|[]]. vm_compute in R. injection R as <-. vm_compute in E'. injection E' as <-. eexists. reflexivity.
Qed.
Example C58_instance O C : positions_ok (lfiles loc_list) (llen loc_list) /\ externals_are_patterns (lfiles loc_list) /\
  exists r, lcompile_grammar O C (lfiles loc_list) (llen loc_list) 5 (P "a.rnc") = fok r.
Proof. split; [exact loc_positions|]. split; [exact loc_externals|]. eexists. vm_compute. reflexivity. Qed.

(** ** C58: a.rnc is [element r { external "b.rnc" }], b.rnc is [start = element averylongname { empty }  x = empty]
    (48 characters): the schema is legal, but the positions of b.rnc are looked up in a.rnc *)
Definition ext_list : list (path * (lschema * N)) := [
  (P "a.rnc", (LSchema [] (LTPattern (LElement (0, 30)%N (el_nm "r") (LExternal (21, 28)%N (lt "b.rnc") None))), 30%N));
  (P "b.rnc", (LSchema [] (LTGrammar [LDefine (0, 5)%N (lit "start") MAssign (LElement (8, 37)%N (el_nm "averylongname") LEmpty); LDefine (39, 40)%N (lit "x") MAssign LEmpty]), 48%N))].
Theorem C58_external_refuted : exists fs flen f, positions_ok fs flen /\ forall O C,
  (forall d, 5 <= d -> lcompile_grammar O C fs flen d f = Panic PSubspan) /\
  (exists r, forall d, 5 <= d -> compile_grammar O C (erase_files fs) d f = fok r).
Proof.
  exists (lfiles ext_list), (llen ext_list), (P "a.rnc"). split; [apply lfiles_positions; vm_compute; reflexivity|]. intros O C. split.
  - any_ldepth.
  - eexists. intros d H. rewrite (compile_mono _ _ _ 5 d _ H); [vm_compute; reflexivity | vm_compute; discriminate].
Qed.
Print Assumptions C58_external_refuted.

(** ** C58: an included file that uses [parent] although there is no parent grammar: the error cannot be reported when the
    reference stands beyond the length of the first file *)
Definition par_list : list (path * (lschema * N)) := [
  (P "a.rnc", (LSchema [] (LTGrammar [LInclude (8, 15)%N (lt "b.rnc") None None]), 15%N));
  (P "b.rnc", (LSchema [] (LTGrammar [LDefine (0, 5)%N (lit "start") MAssign (LElement (8, 35)%N (el_nm "r") (LParent (29, 30)%N (lit "x")))]), 35%N))].
Theorem C58_parent_refuted : exists fs flen f, positions_ok fs flen /\ externals_are_patterns fs /\ forall O C,
  (forall d, 5 <= d -> lcompile_grammar O C fs flen d f = Panic PSubspan) /\
  (forall d, 5 <= d -> compile_grammar O C (erase_files fs) d f = ferr (EInclude ENoParentAvailable)).
Proof.
  exists (lfiles par_list), (llen par_list), (P "a.rnc"). split; [apply lfiles_positions; vm_compute; reflexivity|]. split.
  { apply lfiles_externals. intros x h f' s' [<-|[<-|[]]] I; cbn in I; contradiction. }
  intros O C. split.
  - any_ldepth.
  - intros d H. rewrite (compile_mono _ _ _ 5 d _ H); [vm_compute; reflexivity | vm_compute; discriminate].
Qed.
Print Assumptions C58_parent_refuted.
