(** * CompactSpansMain: consequences of the positions of compact schemas. *)
From Coq Require Import String Lia.
From Verif Require Import Base Datatype Facets Store Compile Syntax SchemaCompile Located LocatedProof
  CompactSpans CompactSpansProof CompactSpansPlace.

Theorem parsed_places text s : parse_compact_located text = LParsed s ->
  placed text s /\ forall a b, In (a, b) (top_spans (ls_top s)) -> (a <= b <= N.of_nat (utf8_len text))%N.
Proof. intros H. apply parsed_placed in H as [P V]. split; [exact P|]. intros a b I. apply V in I. cbn in I. lia. Qed.

(** files that hold compact schemas *)
Definition compact_files (fs : lfilesys) (flen : path -> N) : Prop :=
  forall f s, fs f = inl s -> exists text, parse_compact_located text = LParsed s /\ flen f = N.of_nat (utf8_len text).
Lemma compact_positions fs flen : compact_files fs flen -> positions_ok fs flen.
Proof. intros H f s E a b I. destruct (H f s E) as (text & P & ->). exact (proj2 (parsed_places _ _ P) a b I). Qed.
Theorem compact_harmless : forall O C fs flen, compact_files fs flen -> externals_are_patterns fs -> forall d name,
  lcompile_grammar O C fs flen d name = compile_grammar O C (erase_files fs) d name \/
  (lcompile_grammar O C fs flen d name = Panic PSubspan /\ exists e, compile_grammar O C (erase_files fs) d name = ferr e /\ parent_error e).
Proof. intros O C fs flen H. apply positions_harmless. apply compact_positions. exact H. Qed.
