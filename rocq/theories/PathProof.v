(** * PathProof: where the hrefs of include and external lead. *)
From Coq Require Import String.
From Verif Require Import Base Syntax SchemaCompile Runs.

Definition slash (c : N) : bool := (c =? 47)%N.
(** the components of a path are normal: no "." except as the first component of a relative path *)
Definition normal (abs : bool) (l : list str) : Prop :=
  match l with [] => True | x :: l' => (abs = true -> x <> dot) /\ ~ In dot l' end.
Definition nodots (l : list str) : list str := filter (fun c => negb (str_eqb c dot)) l.

Lemma split_path_runs href segs : Runs slash href segs -> split_path href = segs.
Proof. intros H. exact (Runs_split _ _ _ H). Qed.
Lemma filter_id l : ~ In dot l -> nodots l = l.
Proof.
  unfold nodots. induction l as [|x l IH]; intros H; [reflexivity|]. cbn. destruct (str_eqb x dot) eqn:E; [apply str_eqb_eq in E; subst; exfalso; apply H; left; reflexivity|].
  cbn. rewrite IH; [reflexivity|]. intros G; apply H; right; exact G.
Qed.
Lemma norm_normal abs l : normal abs l -> norm abs l = l.
Proof.
  destruct l as [|x l]; [reflexivity|]. intros [H1 H2]. cbn. fold (nodots l). rewrite (filter_id l H2).
  destruct (str_eqb x dot) eqn:E; [apply str_eqb_eq in E; subst|reflexivity]. destruct abs; [destruct (H1 eq_refl eq_refl) | reflexivity].
Qed.
Lemma norm_app abs x d l : normal abs (x :: d) -> norm abs ((x :: d) ++ l) = (x :: d) ++ nodots l.
Proof.
  intros [H1 H2]. cbn [norm app]. rewrite filter_app. fold (nodots d). fold (nodots l). rewrite (filter_id d H2), app_assoc.
  f_equal. destruct (str_eqb x dot) eqn:E; [apply str_eqb_eq in E; subst|reflexivity]. destruct abs; [destruct (H1 eq_refl eq_refl) | reflexivity].
Qed.
Lemma norm_abs l : norm true l = nodots l.
Proof. destruct l as [|x l]; [reflexivity|]. cbn. destruct (str_eqb x dot); reflexivity. Qed.
Lemma comps_file (dir : list str) file : (match dir ++ [file] with [] => @None path | _ => Some (Path true []) end) = Some (Path true []).
Proof. destruct dir; reflexivity. Qed.
Lemma resolve_file abs dir file href : resolve (Path abs (dir ++ [file])) href =
  match href with
  | c :: _ => if (c =? 47)%N then Some (Path true (norm true (split_path href))) else Some (Path abs (norm abs (dir ++ split_path href)))
  | [] => Some (Path abs dir)
  end.
Proof.
  unfold resolve. cbn [p_comps p_abs]. rewrite removelast_last. destruct (dir ++ [file]) eqn:E; [destruct dir; discriminate E|]. reflexivity.
Qed.
(** a relative href below a directory *)
Lemma relative_dir abs x d file href segs : normal abs (x :: d) -> href <> [] -> hd_error href <> Some 47%N -> Runs slash href segs ->
  resolve (Path abs ((x :: d) ++ [file])) href = Some (Path abs ((x :: d) ++ nodots segs)).
Proof.
  intros Hn He Hh HR. rewrite resolve_file. destruct href as [|c r]; [congruence|].
  destruct (c =? 47)%N eqn:E; [apply N.eqb_eq in E; subst; cbn in Hh; congruence|].
  rewrite (split_path_runs _ _ HR), norm_app by exact Hn. reflexivity.
Qed.
Lemma relative_root file href segs : href <> [] -> hd_error href <> Some 47%N -> Runs slash href segs ->
  resolve (Path true [file]) href = Some (Path true (nodots segs)).
Proof.
  intros He Hh HR. change [file] with ([] ++ [file]). rewrite resolve_file. destruct href as [|c r]; [congruence|].
  destruct (c =? 47)%N eqn:E; [apply N.eqb_eq in E; subst; cbn in Hh; congruence|].
  rewrite (split_path_runs _ _ HR). cbn [app]. rewrite norm_abs. reflexivity.
Qed.
Lemma relative_here file href segs : href <> [] -> hd_error href <> Some 47%N -> Runs slash href segs -> ~ In dot segs ->
  resolve (Path false [file]) href = Some (Path false segs).
Proof.
  intros He Hh HR Hd. change [file] with ([] ++ [file]). rewrite resolve_file. destruct href as [|c r]; [congruence|].
  destruct (c =? 47)%N eqn:E; [apply N.eqb_eq in E; subst; cbn in Hh; congruence|].
  rewrite (split_path_runs _ _ HR). cbn [app]. rewrite norm_normal; [reflexivity|]. destruct segs as [|x l]; [exact I|]. split; [discriminate|]. intros H; apply Hd; right; exact H.
Qed.
Lemma absolute base rest segs : p_comps base <> [] -> Runs slash (47%N :: rest) segs -> resolve base (47%N :: rest) = Some (Path true (nodots segs)).
Proof.
  intros Hb HR. unfold resolve. destruct (p_comps base); [congruence|]. cbn [N.eqb]. replace (47 =? 47)%N with true by reflexivity.
  rewrite (split_path_runs _ _ HR), norm_abs. reflexivity.
Qed.
Lemma nodots_spec l : (forall x, In x (nodots l) <-> In x l /\ x <> dot) .
Proof. intros x. unfold nodots. rewrite filter_In, negb_true_iff. rewrite str_eqb_neq. reflexivity. Qed.
(** relative hrefs stay below the directory of the including file, and the result is normal again *)
Lemma resolve_normal base href p : normal (p_abs base) (p_comps base) -> resolve base href = Some p -> normal (p_abs p) (p_comps p).
Proof.
  assert (G : forall abs l, normal abs (norm abs l)).
  { intros abs [|x l]; [exact I|]. cbn. destruct (str_eqb x dot) eqn:E; cbn; [destruct abs; cbn|].
    - fold (nodots l). assert (H : ~ In dot (nodots l)) by (intros H; apply nodots_spec in H; tauto). destruct (nodots l) as [|y k]; [exact I|]. split; [intros _ ->; apply H; left; reflexivity | intros K; apply H; right; exact K].
    - split; [discriminate|]. fold (nodots l). intros H; apply nodots_spec in H; tauto.
    - apply str_eqb_neq in E. split; [auto|]. fold (nodots l). intros H; apply nodots_spec in H; tauto. }
  intros Hn. unfold resolve. destruct base as [abs comps]; cbn [p_comps p_abs] in *. destruct comps as [|x l]; [discriminate|].
  destruct href as [|c r].
  - intros E. injection E as <-. cbn [p_abs p_comps]. destruct Hn as [H1 H2]. destruct l as [|y l]; [exact I|]. split; [exact H1|].
    intros H. apply H2. destruct (@exists_last _ (y :: l) ltac:(discriminate)) as (k & z & Ez). change (In dot (removelast (y :: l))) in H. rewrite Ez in *. rewrite removelast_last in H. apply in_or_app; left; exact H.
  - destruct (c =? 47)%N; intros E; injection E as <-; apply G.
Qed.
