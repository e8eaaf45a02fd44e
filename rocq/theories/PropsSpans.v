(** * PropsSpans: the property theorems on the source positions of compact schemas (C73), and on what they are for (C58). *)
From Coq Require Import String.
From Verif Require Import Base Datatype Facets Store Compile Syntax SchemaCompile SchemaMain SchemaExamples SchemaTerm Located LocatedProof
  CompactSpans CompactSpansProof CompactSpansPlace CompactSpansMain.

(** ** C73: the positions change nothing else: without them, the result is that of the parser of CompactParse.v *)
Theorem C73_same_schema : forall text, forget (parse_compact_located text) = CompactParse.parse_compact text.
Proof. exact located_forget. Qed.
Print Assumptions C73_same_schema.

(** ** C73: every position the parser records is where it should be, for every text it accepts: [placed] (CompactSpans.v),
    and lies in the file.
    Missing: the position of the name in [start = ...] is empty ([C73_start_refuted]); positions inside annotations,
    and the positions of literals, which are not used for errors. *)
Theorem C73_placed_partial : forall text s, parse_compact_located text = LParsed s ->
  placed text s /\ forall a b, In (a, b) (top_spans (ls_top s)) -> (a <= b <= N.of_nat (utf8_len text))%N.
Proof. exact parsed_places. Qed.
Print Assumptions C73_placed_partial.

(** [start = grammar { x = element é:p { parent y }  start = "a" ~ 'b' | é } include "z"], where é takes two bytes *)
Definition sp_text : str :=
  lit "start = grammar { x = element " ++ [233%N] ++ lit ":p { parent y }  start = " ++ [34; 97; 34]%N ++ lit " ~ 'b' | " ++ [233%N] ++ lit " } include " ++ [39; 122; 39]%N.
Example C73_instance : exists s, parse_compact_located sp_text = LParsed s /\
  top_spans (ls_top s) = [(0, 0); (8, 73); (18, 19); (22, 47); (30, 32); (44, 45); (49, 49); (69, 71); (82, 85)]%N.
Proof. eexists. split; vm_compute; reflexivity. Qed.
(** [x:t { [ a:b = "1" ] p = 'v'  q = 'w' } - x:u "k"]: the positions of the prefixes, the names and the parameters, the
    first of these with its annotation *)
Definition dt_text : str :=
  lit "x:t { [ a:b = '1' ] p = 'v'  q = 'w' } - x:u 'k'".
Example C73_datatype_instance : exists s, parse_compact_located dt_text = LParsed s /\
  top_spans (ls_top s) = [(0, 1); (2, 3); (6, 27); (29, 36); (41, 42); (43, 44)]%N.
Proof. eexists. split; vm_compute; reflexivity. Qed.

(** ** C73: [start = empty]: the position of the defined name is empty, not the five characters of its name *)
Definition name_spans (s : lschema) : list (span * str) :=
  match ls_top s with LTGrammar l => flat_map (fun g => match g with LDefine sp n _ _ => [(sp, n)] | _ => [] end) l | LTPattern _ => [] end.
Theorem C73_start_refuted : exists text s sp n, parse_compact_located text = LParsed s /\ In (sp, n) (name_spans s) /\ ~ Slice text sp n.
Proof.
  exists (lit "start = empty"). eexists. exists (0, 0)%N, (lit "start"). split; [vm_compute; reflexivity|]. split; [left; reflexivity|].
  intros (pre & post & _ & A & B). cbn [fst snd] in A, B. rewrite utf8_app in B. change (utf8_len (lit "start")) with 5 in B. destruct (utf8_len pre); discriminate.
Qed.
Print Assumptions C73_start_refuted.

(** ** C58: for files in the compact syntax nothing need be assumed about positions *)
Theorem C58_compact_partial : forall O C fs flen, compact_files fs flen -> externals_are_patterns fs -> forall d name,
  lcompile_grammar O C fs flen d name = compile_grammar O C (erase_files fs) d name \/
  (lcompile_grammar O C fs flen d name = Panic PSubspan /\ exists e, compile_grammar O C (erase_files fs) d name = ferr e /\ parent_error e).
Proof. exact compact_harmless. Qed.
Print Assumptions C58_compact_partial.
(** a.rnc: [include "b.rnc"  start = element r { x }]; b.rnc: [x = external "c.rnc"]; c.rnc: [element c { text }] *)
Definition sp_files : list (path * str) := [
  (P "a.rnc", lit "include 'b.rnc'  start = element r { x }"); (P "b.rnc", lit "x = external 'c.rnc'"); (P "c.rnc", lit "element c { text }")].
Definition sp_fs : lfilesys := fun f => match find (fun x => path_eqb (fst x) f) sp_files with
  | Some (_, t) => match parse_compact_located t with LParsed s => inl s | _ => inr 1 end | None => inr 0 end.
Definition sp_len (f : path) : N := match find (fun x => path_eqb (fst x) f) sp_files with Some (_, t) => N.of_nat (utf8_len t) | None => 0%N end.
Lemma sp_compact : compact_files sp_fs sp_len.
Proof.
  intros f s E. unfold sp_fs in E. unfold sp_len. destruct (find _ sp_files) as [[g t]|]; [|discriminate E]. exists t. split; [|reflexivity].
  destruct (parse_compact_located t); congruence.
Qed.
Lemma sp_externals : externals_are_patterns sp_fs.
Proof.
  intros f s h f' s' E I R E'.
  assert (K : f' = P "c.rnc").
  { unfold sp_fs in E. destruct (find (fun x => path_eqb (fst x) f) sp_files) as [[g t]|] eqn:F; [|discriminate E].
    apply find_some in F as [F G]. unfold path_eqb in G. cbn in G. destruct (path_eq_dec g f) as [<-|]; [|discriminate G].
    destruct F as [F|[F|[F|[]]]]; injection F as <- <-; vm_compute in E; injection E as <-; vm_compute in I; try contradiction.
    destruct I as [<-|[]]. vm_compute in R. injection R as <-. reflexivity. }
  subst f'. vm_compute in E'. injection E' as <-. eexists. reflexivity.
Qed.
Example C58_compact_instance O C : compact_files sp_fs sp_len /\ externals_are_patterns sp_fs /\
  exists r, lcompile_grammar O C sp_fs sp_len 5 (P "a.rnc") = fok r.
Proof. split; [exact sp_compact|]. split; [exact sp_externals|]. eexists. vm_compute. reflexivity. Qed.
