(** * PropsMove: a schema moved to another directory (C94).  Only statements.

    At the top of SchemaMove.v: [inside a pre l], the path [l] under the directory [pre] (absolute if [a]); [hrefs_schema Q s],
    every href in the schema [s] satisfies [Q]; towards the end: [local], a relative href without "..";
    [same_elsewhere mv x x'], the results [x] and [x'] of compiling are the same but for the paths, which [mv] takes from one
    to the other; [to_dir], that map: the path under the new directory for one under the old. *)
From Coq Require Import String.
From Verif Require Import Base Datatype Facets Store Lang Compile Syntax SchemaCompile SourceCompile SchemaMain SchemaMove.

(** ** C94: a schema whose files name each other by relative hrefs means the same in every directory with the same files.
    The last hypothesis but one: a directory is not a file.  [norm a pre = pre]: the name of the directory has no "." but a first *)
Theorem C94_moved : forall a a' pre pre', pre <> nil /\ norm a pre = pre -> pre' <> nil /\ norm a' pre' = pre' ->
  forall fs fs', (forall l, ~ In dotdot l -> fs' (inside a' pre' l) = fs (inside a pre l)) -> (exists e, fs (inside a pre nil) = inr e) ->
  forall O C, (forall l s, ~ In dotdot l -> fs (inside a pre l) = inl s -> hrefs_schema local s) ->
  forall d l, ~ In dotdot l -> same_elsewhere (to_dir a a' pre pre') (compile_grammar O C fs d (inside a pre l)) (compile_grammar O C fs' d (inside a' pre' l)).
Proof. exact moved_dir. Qed.
(** the same definitions, hence the same verdicts; and the same files read *)
Theorem C94_same_definitions : forall a a' pre pre', pre <> nil /\ norm a pre = pre -> pre' <> nil /\ norm a' pre' = pre' ->
  forall fs fs', (forall l, ~ In dotdot l -> fs' (inside a' pre' l) = fs (inside a pre l)) -> (exists e, fs (inside a pre nil) = inr e) ->
  forall O C, (forall l s, ~ In dotdot l -> fs (inside a pre l) = inl s -> hrefs_schema local s) ->
  forall d l r st, ~ In dotdot l -> compile_grammar O C fs d (inside a pre l) = fok (r, st) ->
  exists st' ls, compile_grammar O C fs' d (inside a' pre' l) = fok (r, st') /\ cells st' = cells st /\
    loaded st = map (inside a pre) ls /\ loaded st' = map (inside a' pre') ls.
Proof. exact moved_loaded. Qed.
(** with absolute hrefs too, where these lead to the same files and the directory is named from the working directory *)
Theorem C94_absolute_hrefs : forall pre pre' fs fs', pre <> nil /\ norm false pre = pre -> pre' <> nil /\ norm false pre' = pre' ->
  (forall l, ~ In dotdot l -> fs' (inside false pre' l) = fs (inside false pre l)) -> (forall f, p_abs f = true -> fs' f = fs f) ->
  (exists e, fs (inside false pre nil) = inr e) -> (forall f s, fs f = inl s -> hrefs_schema local_or_absolute s) ->
  forall O C d l, ~ In dotdot l -> same_elsewhere (to_dir false false pre pre') (compile_grammar O C fs d (inside false pre l)) (compile_grammar O C fs' d (inside false pre' l)).
Proof. exact moved_here. Qed.

(** old/main.rnc, old/sub/lib.rnc, old/sub/end.rnc moved to /opt/new; old/loop.rnc includes itself through another file *)
Definition old_dir : list str := lit "old" :: nil.
Definition new_dir : list str := lit "opt" :: lit "new" :: nil.
Example C94_instance O C : let fs := directory false old_dir tree in let fs' := directory true new_dir tree in
  (old_dir <> nil /\ norm false old_dir = old_dir) /\ (new_dir <> nil /\ norm true new_dir = new_dir) /\
  (forall l, fs' (inside true new_dir l) = fs (inside false old_dir l)) /\ fs (inside false old_dir nil) = inr 0 /\
  (forall l s, fs (inside false old_dir l) = inl s -> hrefs_schema local s) /\
  (exists r st, compile_grammar O C fs' 5 (inside true new_dir (lit "main.rnc" :: nil)) = fok (r, st) /\
     loaded st = map (inside true new_dir) ((lit "main.rnc" :: nil) :: (lit "sub" :: lit "lib.rnc" :: nil) :: (lit "sub" :: lit "end.rnc" :: nil) :: nil)) /\
  compile_grammar O C fs' 5 (inside true new_dir (lit "loop.rnc" :: nil)) =
    ferr (moved_error (to_dir false true old_dir new_dir) (EInclude (EInclude (ERecursiveInclude (inside false old_dir (lit "round.rnc" :: nil)))))).
Proof.
  cbv zeta. split; [split; [discriminate | reflexivity]|]. split; [split; [discriminate | reflexivity]|].
  split; [intros l; rewrite !directory_inside; reflexivity|]. split; [reflexivity|].
  split; [intros l s; rewrite directory_inside; apply tree_local|]. split; [eexists _, _; split; vm_compute; reflexivity | vm_compute; reflexivity].
Qed.

Print Assumptions C94_moved.
Print Assumptions C94_same_definitions.
Print Assumptions C94_absolute_hrefs.
