(** * PropsPath: where the hrefs of include and external lead (C75). *)
From Coq Require Import String.
From Verif Require Import Base Syntax SchemaCompile Runs PathProof.

(** ** C75: a path is a list of components ([Path absolute? components]); the last one is the file.
    [Runs slash href segs]: [segs] are the pieces of [href] between slashes. *)
(** a relative href is taken from the directory of the file it is written in, without "." *)
Theorem C75_relative : forall abs x d file href segs, normal abs (x :: d) -> href <> [] -> hd_error href <> Some 47%N -> Runs slash href segs ->
  resolve (Path abs ((x :: d) ++ [file])) href = Some (Path abs ((x :: d) ++ filter (fun c => negb (str_eqb c (lit "."))) segs)).
Proof. exact relative_dir. Qed.
Example C75_relative_instance : resolve (Path true [lit "a"; lit "b"; lit "main.rnc"]) (lit "./c//d.rnc") = Some (Path true [lit "a"; lit "b"; lit "c"; lit "d.rnc"]).
Proof.
  refine (C75_relative true (lit "a") [lit "b"] (lit "main.rnc") (lit "./c//d.rnc") [lit "."; lit "c"; lit "d.rnc"] _ _ _ (split_Runs slash (lit "./c//d.rnc"))).
  - split; [intros _ H; discriminate H|]. intros [H|[]]; discriminate H.
  - discriminate.
  - discriminate.
Qed.
Theorem C75_relative_root : forall file href segs, href <> [] -> hd_error href <> Some 47%N -> Runs slash href segs ->
  resolve (Path true [file]) href = Some (Path true (filter (fun c => negb (str_eqb c (lit "."))) segs)).
Proof. exact relative_root. Qed.
(** from a file in the current directory; an href with "." is missing: the dot stays ([C75_dot_refuted]) *)
Theorem C75_relative_here_partial : forall file href segs, href <> [] -> hd_error href <> Some 47%N -> Runs slash href segs -> ~ In (lit ".") segs ->
  resolve (Path false [file]) href = Some (Path false segs).
Proof. exact relative_here. Qed.
Example C75_here_instance : resolve (Path false [lit "main.rnc"]) (lit "d/x.rnc") = Some (Path false [lit "d"; lit "x.rnc"]).
Proof.
  refine (C75_relative_here_partial (lit "main.rnc") (lit "d/x.rnc") [lit "d"; lit "x.rnc"] _ _ (split_Runs slash (lit "d/x.rnc")) _); try discriminate.
  intros [H|[H|[]]]; discriminate H.
Qed.
(** an absolute href is taken as it is, whatever the file *)
Theorem C75_absolute : forall base rest segs, p_comps base <> [] -> Runs slash (47%N :: rest) segs ->
  resolve base (47%N :: rest) = Some (Path true (filter (fun c => negb (str_eqb c (lit "."))) segs)).
Proof. exact absolute. Qed.
Example C75_absolute_instance : resolve (Path false [lit "m"]) (lit "/x/y.rnc") = Some (Path true [lit "x"; lit "y.rnc"]).
Proof. refine (C75_absolute (Path false [lit "m"]) (lit "x/y.rnc") [lit "x"; lit "y.rnc"] _ (split_Runs slash (lit "/x/y.rnc"))). discriminate. Qed.
(** "." and ".." are not resolved: the same file gets several paths, and is a different file for the compiler *)
Theorem C75_dot_refuted : resolve (Path false [lit "main.rnc"]) (lit "./x.rnc") <> resolve (Path false [lit "main.rnc"]) (lit "x.rnc") /\
  resolve (Path true [lit "a"; lit "main.rnc"]) (lit "../a/x.rnc") <> resolve (Path true [lit "a"; lit "main.rnc"]) (lit "x.rnc").
Proof. split; discriminate. Qed.

Print Assumptions C75_relative.
Print Assumptions C75_relative_root.
Print Assumptions C75_relative_here_partial.
Print Assumptions C75_absolute.
Print Assumptions C75_dot_refuted.
