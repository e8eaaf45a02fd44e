(** * CompactTotal: the compact parser always returns, and when it may panic. *)
From Coq Require Import String.
From Verif Require Import Base Datatype Syntax CompactParse.

(** the last line of the text contains [#] *)
Definition OpenComment (s : str) : Prop := exists a b, s = a ++ lit "#" ++ b /\ Forall (fun c => c <> 10%N) b.
Definition Closed (s : str) : Prop := ~ OpenComment s.
(** the text contains the follow annotation mark *)
Definition HasFollow (s : str) : Prop := exists a b, s = a ++ lit ">>" ++ b.

Definition suffix (r s : str) : Prop := exists pre, s = pre ++ r.
Lemma suffix_refl s : suffix s s. Proof. exists []; reflexivity. Qed.
Lemma suffix_trans a b c : suffix a b -> suffix b c -> suffix a c.
Proof. intros [x ->] [y ->]. exists (y ++ x). rewrite app_assoc. reflexivity. Qed.
Lemma suffix_len r s : suffix r s -> List.length r <= List.length s.
Proof. intros [x ->]. rewrite app_length. lia. Qed.
Lemma suffix_lf r s : suffix r s -> Closed s -> Closed r.
Proof. intros [p ->] H (a & b & -> & Hb). apply H. exists (p ++ a), b. rewrite <- app_assoc. auto. Qed.
Lemma suffix_follow r s : suffix r s -> HasFollow r -> HasFollow s.
Proof. intros [p ->] (a & b & ->). exists (p ++ a), b. rewrite app_assoc. reflexivity. Qed.
#[export] Hint Resolve suffix_refl : core.

(** A parser within its budget. *)
Definition T {A} (strict : bool) (n : nat) (p : parser A) : Prop :=
  forall s, List.length s < n ->
  match p s with
  | PFuel => False
  | POk _ r => suffix r s /\ (strict = true -> List.length r < List.length s)
  | PInc => ~ Closed s
  | PPanic x => x = PUnwrapNone /\ HasFollow s
  | _ => True
  end.

Lemma T_bind {A B} b1 b2 n (p : parser A) (f : A -> parser B) :
  T b1 n p -> (forall a, T b2 n (f a)) -> T (b1 || b2) n (pbind p f).
Proof.
  intros Hp Hf s Hs. unfold pbind. specialize (Hp s Hs). destruct (p s) as [a r | | | | x |]; auto.
  destruct Hp as [H1 H2]. pose proof (suffix_len _ _ H1). specialize (Hf a r ltac:(lia)).
  destruct (f a r) as [a' r' | | | | x |]; auto.
  - destruct Hf as [H3 H4]. split; [eapply suffix_trans; eauto|]. intros Hb. pose proof (suffix_len _ _ H3).
    apply orb_prop in Hb as [Hb | Hb]; [apply H2 in Hb | apply H4 in Hb]; lia.
  - intros H3. apply Hf. eapply suffix_lf; eauto.
  - destruct Hf as [-> H3]. split; [reflexivity|]. eapply suffix_follow; eauto.
Qed.
Lemma T_bindS {A B} n (p : parser A) (f : A -> parser B) :
  T true (S n) p -> (forall a, T false n (f a)) -> T true (S n) (pbind p f).
Proof.
  intros Hp Hf s Hs. unfold pbind. specialize (Hp s Hs). destruct (p s) as [a r | | | | x |]; auto.
  destruct Hp as [H1 H2]. specialize (H2 eq_refl). specialize (Hf a r ltac:(lia)).
  destruct (f a r) as [a' r' | | | | x |]; auto.
  - destruct Hf as [H3 H4]. split; [eapply suffix_trans; eauto|]. intros _. pose proof (suffix_len _ _ H3). lia.
  - intros H3. apply Hf. eapply suffix_lf; eauto.
  - destruct Hf as [-> H3]. split; [reflexivity|]. eapply suffix_follow; eauto.
Qed.
Lemma T_weak {A} b n (p : parser A) : T b n p -> T false n p.
Proof. intros H s Hs. specialize (H s Hs). destruct (p s); auto. destruct H; split; auto; discriminate. Qed.
Lemma T_le {A} b m n (p : parser A) : m <= n -> T b n p -> T b m p.
Proof. intros H Hp s Hs. apply Hp. lia. Qed.
Lemma T_ret {A} n (a : A) : T false n (pret a).
Proof. intros s _. cbn. split; [apply suffix_refl | discriminate]. Qed.
Lemma T_err {A} b n : T b n (@perr A).
Proof. intros s _. exact I. Qed.
Lemma T_or {A} b n (p q : parser A) : T b n p -> T b n q -> T b n (p <|> q).
Proof. intros Hp Hq s Hs. specialize (Hp s Hs). unfold por. destruct (p s); auto. apply Hq; auto. Qed.
Lemma T_opt {A} b n (p : parser A) : T b n p -> T false n (popt p).
Proof.
  intros Hp s Hs. specialize (Hp s Hs). unfold popt. destruct (p s); auto.
  - split; [tauto | discriminate].
  - split; [apply suffix_refl | discriminate].
Qed.
Lemma T_cut {A} b n (p : parser A) : T b n p -> T b n (pcut p).
Proof. intros Hp s Hs. specialize (Hp s Hs). unfold pcut. destruct (p s); auto. Qed.
Lemma T_not {A} b n (p : parser A) : T b n p -> T false n (pnot p).
Proof.
  intros Hp s Hs. specialize (Hp s Hs). unfold pnot. destruct (p s); auto. split; [apply suffix_refl | discriminate].
Qed.
Lemma T_map {A B} b n (f : A -> B) (p : parser A) : T b n p -> T b n (pmap f p).
Proof. intros Hp. unfold pmap. rewrite <- (orb_false_r b). apply T_bind; [exact Hp|]. intros a. apply T_ret. Qed.
Lemma T_recog {A} b n (p : parser A) : T b n p -> T b n (precog p).
Proof. intros Hp s Hs. specialize (Hp s Hs). unfold precog. destruct (p s); auto. Qed.
Lemma T_tag0 n t : T false n (ptag t).
Proof.
  intros s _. revert s. induction t as [|a t IH]; intros s; [cbn; split; [apply suffix_refl | discriminate]|].
  destruct s as [|c s]; cbn [ptag]; [exact I|]. destruct (a =? c)%N; [|exact I]. specialize (IH s).
  destruct (ptag t s); auto.
  - destruct IH as [[p ->] _]. split; [exists (c :: p); reflexivity | discriminate].
  - intros H. apply IH. eapply suffix_lf; [|exact H]. exists [c]; reflexivity.
  - destruct IH as [-> H]. split; [reflexivity|]. eapply suffix_follow; [|exact H]. exists [c]; reflexivity.
Qed.
Lemma T_tag n t : t <> [] -> T true n (ptag t).
Proof.
  intros Ht s Hs. destruct t as [|a t]; [congruence|]. destruct s as [|c s]; cbn [ptag]; [exact I|].
  destruct (a =? c)%N; [|exact I]. pose proof (T_tag0 (S (List.length s)) t s ltac:(lia)) as H.
  destruct (ptag t s); auto.
  - destruct H as [H _]. pose proof (suffix_len _ _ H). destruct H as [p ->]. split; [exists (c :: p); reflexivity|].
    intros _. rewrite app_length in *. cbn. rewrite app_length. lia.
  - intros H'. apply H. eapply suffix_lf; [|exact H']. exists [c]; reflexivity.
  - destruct H as [-> H]. split; [reflexivity|]. eapply suffix_follow; [|exact H]. exists [c]; reflexivity.
Qed.
Lemma T_sat n f : T true n (psat f).
Proof. intros s _. unfold psat. destruct s as [|c s]; [exact I|]. destruct (f c); [|exact I]. split; [exists [c]; reflexivity | cbn; lia]. Qed.

Lemma T_many_loop {A} n (p : parser A) : T false n p -> forall m s, List.length s < m -> List.length s < n ->
  match many_loop m p s with
  | PFuel => False
  | POk _ r => suffix r s
  | PInc => ~ Closed s
  | PPanic x => x = PUnwrapNone /\ HasFollow s
  | _ => True
  end.
Proof.
  intros Hp. induction m as [|m IH]; intros s Hm Hn; [lia|]. cbn [many_loop]. specialize (Hp s Hn).
  destruct (p s) as [a r | | | | x |]; auto. destruct Hp as [H1 _].
  destruct (Nat.eqb_spec (List.length r) (List.length s)); [exact I|]. pose proof (suffix_len _ _ H1).
  specialize (IH r ltac:(lia) ltac:(lia)). destruct (many_loop m p r); auto.
  - eapply suffix_trans; eauto.
  - intros H3. apply IH. eapply suffix_lf; eauto.
  - destruct IH as [-> H3]. split; [reflexivity|]. eapply suffix_follow; eauto.
Qed.
Lemma T_many0 {A} b n (p : parser A) : T b n p -> T false n (pmany0 p).
Proof.
  intros Hp s Hs. unfold pmany0. pose proof (T_many_loop n p (T_weak _ _ _ Hp) (S (List.length s)) s ltac:(lia) Hs) as H.
  destruct (many_loop _ p s); auto. split; [exact H | discriminate].
Qed.
Lemma T_many1 {A} b n (p : parser A) : T b n p -> T b n (pmany1 p).
Proof.
  intros Hp. unfold pmany1. rewrite <- (orb_false_r b). apply T_bind; [exact Hp|]. intros a.
  change false with (false || false). eapply T_bind; [eapply T_many0; exact Hp|]. intros l. apply T_ret.
Qed.
Lemma T_sep_loop {A B} n (sep : parser B) (p : parser A) : T false n sep -> T false n p ->
  forall m s, List.length s < m -> List.length s < n ->
  match sep_loop m sep p s with
  | PFuel => False
  | POk _ r => suffix r s
  | PInc => ~ Closed s
  | PPanic x => x = PUnwrapNone /\ HasFollow s
  | _ => True
  end.
Proof.
  intros Hsep Hp. induction m as [|m IH]; intros s Hm Hn; [lia|]. cbn [sep_loop]. specialize (Hsep s Hn).
  destruct (sep s) as [a r | | | | x |]; auto. destruct Hsep as [H1 _]. pose proof (suffix_len _ _ H1).
  specialize (Hp r ltac:(lia)). destruct (p r) as [a2 r2 | | | | x |]; auto.
  - destruct Hp as [H2 _]. pose proof (suffix_len _ _ H2).
    destruct (Nat.eqb_spec (List.length r2) (List.length s)); [exact I|].
    specialize (IH r2 ltac:(lia) ltac:(lia)). pose proof (suffix_trans _ _ _ H2 H1). destruct (sep_loop m sep p r2); auto.
    + eapply suffix_trans; eauto.
    + intros H5. apply IH. eapply suffix_lf; eauto.
    + destruct IH as [-> H5]. split; [reflexivity|]. eapply suffix_follow; eauto.
  - intros H5. apply Hp. eapply suffix_lf; eauto.
  - destruct Hp as [-> H5]. split; [reflexivity|]. eapply suffix_follow; eauto.
Qed.
Lemma T_loop_parser {A B} n (sep : parser B) (p : parser A) : T false n sep -> T false n p ->
  T false n (fun s => sep_loop (S (List.length s)) sep p s).
Proof.
  intros H1 H2 s Hs. pose proof (T_sep_loop n sep p H1 H2 (S (List.length s)) s ltac:(lia) Hs) as H.
  destruct (sep_loop _ sep p s); auto. split; [exact H | discriminate].
Qed.
Lemma T_sep1 {A B} b b' n (sep : parser B) (p : parser A) : T b' n sep -> T b n p -> T b n (psep1 sep p).
Proof.
  intros H1 H2. unfold psep1. rewrite <- (orb_false_r b). apply T_bind; [exact H2|]. intros a.
  change false with (false || false). eapply T_bind; [apply T_loop_parser; eapply T_weak; eassumption|]. intros l. apply T_ret.
Qed.
Lemma T_sep0 {A B} b b' n (sep : parser B) (p : parser A) : T b' n sep -> T b n p -> T false n (psep0 sep p).
Proof.
  intros H1 H2 s Hs. apply T_weak in H1, H2. unfold psep0. pose proof (H2 s Hs) as Hp. destruct (p s) as [a r | | | | x |]; auto.
  - destruct Hp as [H3 _]. pose proof (suffix_len _ _ H3) as Hlen.
    pose proof (T_sep_loop n sep p H1 H2 (S (List.length r)) r ltac:(lia) ltac:(lia)) as H. destruct (sep_loop _ sep p r); auto.
    + split; [eapply suffix_trans; eauto | discriminate].
    + intros H5. apply H. eapply suffix_lf; eauto.
    + destruct H as [-> H5]. split; [reflexivity|]. eapply suffix_follow; eauto.
  - split; [apply suffix_refl | discriminate].
Qed.

Lemma take_while_app f s a b : take_while f s = (a, b) -> s = a ++ b.
Proof.
  revert a b; induction s as [|c s IH]; intros a b; cbn; [intros [= <- <-]; reflexivity|].
  destruct (f c).
  - destruct (take_while f s) as [x y]. intros [= <- <-]. cbn. f_equal. apply IH. reflexivity.
  - intros [= <- <-]. reflexivity.
Qed.
Lemma take_while_all f s a b : take_while f s = (a, b) -> Forall (fun c => f c = true) a.
Proof.
  revert a b; induction s as [|c s IH]; intros a b; cbn; [intros [= <- <-]; constructor|].
  destruct (f c) eqn:E.
  - destruct (take_while f s) as [x y]. intros [= <- <-]. constructor; [exact E|]. eapply IH. reflexivity.
  - intros [= <- <-]. constructor.
Qed.
Lemma take_while_stop f s a b : take_while f s = (a, b) -> match b with [] => True | c :: _ => f c = false end.
Proof.
  revert a b; induction s as [|c s IH]; intros a b; cbn; [intros [= <- <-]; exact I|].
  destruct (f c) eqn:E.
  - destruct (take_while f s) as [x y]. intros [= <- <-]. eapply IH. reflexivity.
  - intros [= <- <-]. exact E.
Qed.
Lemma T_multispace n : T true n multispace1.
Proof.
  intros s _. unfold multispace1. destruct (take_while is_xml_ws s) as [a b] eqn:E. apply take_while_app in E.
  destruct a as [|c a]; [exact I|]. subst s. split; [exists (c :: a); reflexivity|]. intros _. rewrite app_length. cbn. lia.
Qed.
Lemma T_comment n : T true n comment.
Proof.
  intros s _. unfold comment, pbind, pret. destruct s as [|c s]; [exact I|].
  change (ptag (lit "#") (c :: s)) with (if (35 =? c)%N then POk tt s else PErr).
  destruct (N.eqb_spec 35 c) as [<-|]; [|exact I].
  unfold not_line_ending. destruct (take_while _ s) as [a b] eqn:E.
  pose proof (take_while_app _ _ _ _ E) as Ha. pose proof (take_while_all _ _ _ _ E) as Hall. subst s.
  assert (Hno : forall d, Closed (35%N :: a ++ d) -> d = [] \/ d = [13%N] -> False).
  { intros d H Hd. apply H. exists [], (a ++ d). split; [reflexivity|]. apply Forall_app. split.
    - eapply Forall_impl; [|exact Hall]. cbn. intros c Hc ->. discriminate Hc.
    - destruct Hd as [-> | ->]; repeat constructor. discriminate. }
  assert (Hok : suffix b (35%N :: a ++ b) /\ (true = true -> List.length b < List.length (35%N :: a ++ b))).
  { split; [exists (35%N :: a); reflexivity | cbn; rewrite app_length; lia]. }
  destruct b as [|c b].
  - intros H. eapply Hno; eauto.
  - destruct (N.eqb_spec c 13) as [->|]; [|exact Hok]. destruct b as [|d b]; [intros H; eapply Hno; eauto|].
    destruct (d =? 10)%N; [exact Hok | exact I].
Qed.
Ltac T0 :=
  lazymatch goal with
  | |- T false _ (pret _) => apply T_ret
  | |- T _ _ perr => apply T_err
  | |- T false _ (popt _) => eapply T_opt
  | |- T false _ (pnot _) => eapply T_not
  | |- T _ _ (pcut _) => apply T_cut
  | |- T _ _ (pmap _ _) => apply T_map
  | |- T _ _ (precog _) => apply T_recog
  | |- T _ _ (por _ _) => apply T_or
  | |- T true _ (ptag _) => apply T_tag; discriminate
  | |- T false _ (ptag _) => apply T_tag0
  | |- T _ _ (ptag _) => apply T_tag; discriminate
  | |- T _ _ (psat _) => apply T_sat
  end.
Lemma T_seq {A B} n (p : parser A) (f : A -> parser B) : T false n p -> (forall a, T false n (f a)) -> T false n (pbind p f).
Proof. intros. change false with (false || false). apply T_bind; assumption. Qed.
(** the first component consumes *)
Lemma T_seq1 {A B} n (p : parser A) (f : A -> parser B) : T true n p -> (forall a, T false n (f a)) -> T true n (pbind p f).
Proof. intros. change true with (true || false). apply T_bind; assumption. Qed.
Lemma T_seq2 {A B} n (p : parser A) (f : A -> parser B) : T false n p -> (forall a, T true n (f a)) -> T true n (pbind p f).
Proof. intros. change true with (false || true). apply T_bind; assumption. Qed.

Lemma T_soc n : T true n space_or_comment.
Proof. unfold space_or_comment. T0; [apply T_seq1; [apply T_multispace | intros; T0] | apply T_comment]. Qed.
Lemma T_sc0 n : T false n sc0.
Proof. unfold sc0. apply T_seq; [eapply T_many0; apply T_soc | intros; T0]. Qed.
Lemma T_sc1 n : T true n sc1.
Proof. unfold sc1. apply T_seq1; [apply T_many1; apply T_soc | intros; T0]. Qed.
Lemma T_nc_name n : T true n p_nc_name.
Proof.
  intros s _. unfold p_nc_name, nc_name. destruct s as [|c s]; [exact I|]. destruct (nc_start_char c); [|exact I].
  destruct (take_while nc_char s) as [a b] eqn:E. apply take_while_app in E. subst s.
  split; [exists (c :: a); reflexivity | intros _; cbn; rewrite app_length; lia].
Qed.
Lemma T_alt_tags n l : Forall (fun t => t <> []) l -> T true n (alt_tags l).
Proof.
  induction 1 as [|t l Ht Hl IH]; cbn [alt_tags]; [T0|]. T0; [|exact IH]. apply T_seq1; [apply T_tag; exact Ht | intros; T0].
Qed.
Lemma T_keyword n : T true n keyword.
Proof.
  unfold keyword. apply T_seq1; [apply T_alt_tags; unfold keywords; repeat constructor; discriminate|]. intros k.
  apply T_seq; [T0; T0 | intros; T0].
Qed.
Lemma T_identifier n : T true n identifier.
Proof.
  unfold identifier. T0; T0.
  - apply T_seq1; [T0|]. intros. eapply T_weak. apply T_keyword.
  - apply T_seq2; [T0; apply T_keyword|]. intros. apply T_nc_name.
Qed.
Lemma T_idkw n : T true n identifier_or_keyword.
Proof. unfold identifier_or_keyword. T0; T0; [apply T_identifier | apply T_keyword]. Qed.
Lemma T_take_until n t : T false n (take_until t).
Proof.
  intros s _. assert (H : match take_until t s with POk _ r => suffix r s | PErr => True | _ => False end).
  { induction s as [|c s IH]; cbn [take_until].
    - destruct (ptag t []); auto.
    - assert (H : match take_until t s with POk b r => suffix r (c :: s) | PErr => True | _ => False end).
      { destruct (take_until t s); auto. eapply suffix_trans; [exact IH|]. exists [c]; reflexivity. }
      destruct (ptag t (c :: s)); auto; destruct (take_until t s); auto. }
  destruct (take_until t s); try tauto. split; [exact H | discriminate].
Qed.
Lemma T_run n cs : T false n (run_without cs).
Proof.
  intros s _. unfold run_without. destruct (take_while _ s) as [a b] eqn:E. apply take_while_app in E. subst s.
  split; [exists a; reflexivity | discriminate].
Qed.
Lemma T_delim n o p c : o <> [] -> T false n p -> T true n (delim o p c).
Proof.
  intros Ho Hp. unfold delim. apply T_seq1; [apply T_tag; exact Ho|]. intros. apply T_seq; [exact Hp|]. intros.
  apply T_seq; [T0 | intros; T0].
Qed.
Lemma T_segment n : T true n literal_segment.
Proof. unfold literal_segment. repeat T0; apply T_delim; try discriminate; try apply T_take_until; apply T_run. Qed.
Lemma T_literal n : T true n p_literal.
Proof.
  unfold p_literal. apply (T_sep1 true false); [|apply T_segment].
  apply T_seq; [apply T_sc0|]. intros. apply T_seq; [T0|]. intros. apply T_sc0.
Qed.
Lemma T_uri n : T true n namespace_uri_literal.
Proof. unfold namespace_uri_literal. T0; T0; [T0 | apply T_literal]. Qed.

(** chains of parsers which all stay within the same budget *)
Ltac Tl :=
  lazymatch goal with
  | |- T false _ sc0 => apply T_sc0
  | |- T false _ sc1 => eapply T_weak; apply T_sc1
  | |- T false _ identifier => eapply T_weak; apply T_identifier
  | |- T false _ identifier_or_keyword => eapply T_weak; apply T_idkw
  | |- T false _ keyword => eapply T_weak; apply T_keyword
  | |- T false _ p_nc_name => eapply T_weak; apply T_nc_name
  | |- T false _ p_literal => eapply T_weak; apply T_literal
  | |- T false _ namespace_uri_literal => eapply T_weak; apply T_uri
  | |- T false _ (pbind _ _) => apply T_seq; [Tl | intros ?; Tl]
  | |- T false _ (popt ?p) => apply (T_opt false); Tl
  | |- T _ _ _ => first [ assumption | T0; Tl | idtac ]
  end.
Lemma T_decl n : T true n p_decl.
Proof. unfold p_decl. repeat T0; (apply T_seq1; [T0 | intros; Tl]). Qed.
Lemma T_cname n : T true n cname.
Proof. unfold cname. apply T_seq1; [apply T_nc_name | intros; Tl]. Qed.
Lemma T_dtname n : T true n p_datatype_name.
Proof. unfold p_datatype_name. repeat T0. apply T_cname. Qed.
Lemma T_name n : T true n p_name.
Proof. unfold p_name. repeat T0; [apply T_cname | apply T_idkw]. Qed.
Lemma T_ann_attr n : T true n annotation_attribute.
Proof. unfold annotation_attribute. apply T_seq1; [apply T_name | intros; Tl]. Qed.
Lemma T_annotation n : T true n (annotation_element n).
Proof.
  induction n as [|n IH]; [intros s Hs; lia|]. cbn [annotation_element]. eapply T_bindS; [apply T_name|].
  intros nm. repeat (apply T_seq; [Tl | intros ?]); Tl.
  - eapply T_sep0; [apply T_sc1 | apply T_ann_attr].
  - eapply (T_sep0 false); [apply T_sc1|]. T0; T0; eapply T_weak; [exact IH | apply T_literal].
Qed.
Lemma T_initial n : T true n (initial_annotation n).
Proof.
  unfold initial_annotation. apply T_seq1; [T0|]. intros _. repeat (apply T_seq; [Tl | intros ?]); Tl.
  - eapply T_sep0; [apply T_sc1 | apply T_ann_attr].
  - eapply T_sep0; [apply T_sc1 | apply T_annotation].
Qed.
Lemma T_maybe n : T false n (maybe_initial_annotation n).
Proof. unfold maybe_initial_annotation. apply (T_opt false). apply T_seq; [eapply T_weak; apply T_initial | intros; Tl]. Qed.
Lemma T_follow1 n : T true n (follow_annotation n).
Proof.
  unfold follow_annotation. apply T_seq1; [|intros; eapply T_weak; apply T_annotation].
  apply T_seq2; [Tl|]. intros. apply T_seq1; [T0 | intros; Tl].
Qed.
Lemma T_follow n : T false n (follow_annotation_list n).
Proof. eapply T_sep0; [apply T_sc0 | apply T_follow1]. Qed.
Lemma ptag_ok t s r : ptag t s = POk tt r -> s = t ++ r.
Proof.
  revert s; induction t as [|a t IH]; intros s; cbn [ptag]; [intros [= <-]; reflexivity|].
  destruct s as [|c s]; [discriminate|]. destruct (N.eqb_spec a c) as [<-|]; [|discriminate]. intros H. apply IH in H as ->. reflexivity.
Qed.
Lemma follow_has n s a l r : follow_annotation_list n s = POk (a :: l) r -> HasFollow s.
Proof.
  unfold follow_annotation_list, psep0. destruct (follow_annotation n s) as [x r1 | | | | |] eqn:E; try discriminate. intros _.
  unfold follow_annotation, pbind in E. destruct (sc0 s) as [u r2 | | | | |] eqn:E2; try discriminate.
  destruct (ptag (lit ">>") r2) as [[] r3 | | | | |] eqn:E3; try discriminate. apply ptag_ok in E3.
  pose proof (T_sc0 (S (List.length s)) s ltac:(lia)) as H. rewrite E2 in H. destruct H as [H _]. eapply suffix_follow; [exact H|].
  exists [], r3. exact E3.
Qed.

Lemma T_except_nc n nc : T false n nc -> T false n (except_nc nc).
Proof. intros H. unfold except_nc. Tl. Qed.
Lemma T_prim_nc n nc : T false n nc -> T true (S n) (prim_nc nc).
Proof.
  intros H. unfold prim_nc. repeat apply T_or; [| T0; apply T_name | | ]; unfold ns_name_nc, any_name_nc, paren_nc.
  - eapply T_bindS; [apply T_nc_name|]. intros. apply T_seq; [Tl|]. intros. apply T_seq; [apply T_except_nc; exact H | intros; T0].
  - eapply T_bindS; [T0|]. intros. apply T_seq; [apply T_except_nc; exact H | intros; T0].
  - eapply T_bindS; [T0|]. intros. Tl.
Qed.
Lemma T_alt_step n nc a : T false n nc -> T false n (alt_step nc a).
Proof.
  intros H s Hs. unfold alt_step. assert (Ha : T false n (alt_nc nc)) by (unfold alt_nc; Tl).
  specialize (Ha s Hs). destruct (alt_nc nc s); auto; split; auto using suffix_refl; discriminate.
Qed.
Lemma T_name_class n : T true n (name_class n).
Proof.
  induction n as [|n IH]; [intros s Hs; lia|].
  assert (IHw := T_weak _ _ _ IH).
  assert (Hs : forall an : option initial, T true (S n) (let* a := prim_nc (name_class n) in let* fl := follow_annotation_list (S n) in
    match fl, an with | _ :: _, None => fun _ => PPanic PUnwrapNone | _, _ => alt_step (name_class n) a end)).
  { intros an. eapply T_bindS; [apply T_prim_nc; exact IHw|]. intros a s Hs. unfold pbind.
    pose proof (T_follow (S n) s ltac:(lia)) as Hf. pose proof (follow_has (S n) s) as Hh.
    destruct (follow_annotation_list (S n) s) as [fl r | | | | x |]; auto.
    destruct Hf as [Hf _]. pose proof (suffix_len _ _ Hf).
    assert (Hr : match alt_step (name_class n) a r with
                 | POk _ r' => suffix r' s /\ (false = true -> List.length r' < List.length s)
                 | PInc => ~ Closed s | PPanic x => x = PUnwrapNone /\ HasFollow s | PFuel => False | _ => True end).
    { pose proof (T_alt_step n (name_class n) a IHw r ltac:(lia)) as Ha. destruct (alt_step (name_class n) a r); auto.
      - destruct Ha as [Ha _]. split; [eapply suffix_trans; eauto | discriminate].
      - intros H5. apply Ha. eapply suffix_lf; eauto.
      - destruct Ha as [-> H5]. split; [reflexivity|]. eapply suffix_follow; eauto. }
    destruct fl as [|f fl]; [destruct an; exact Hr|]. destruct an; [exact Hr|]. split; [reflexivity|]. eapply Hh. reflexivity. }
  cbn [name_class]. apply T_seq2; [apply T_maybe | exact Hs].
Qed.

Lemma T_opt_inherit n : T false n opt_inherit.
Proof. unfold opt_inherit, inherit. Tl. Qed.
Lemma T_assign n : T true n assign_method.
Proof. unfold assign_method. repeat T0. Qed.
Lemma T_param n : T true n (p_param n).
Proof.
  unfold p_param. apply T_seq2; [apply T_maybe|]. intros. apply T_seq2; [Tl|]. intros.
  apply T_seq1; [apply T_idkw|]. intros. Tl.
Qed.

Section Bodies.
Variable n : nat.
Variable R : rules.
Hypothesis Hp : T true n (r_pattern R).
Hypothesis Hg : T true n (r_grammar R).
Hypothesis Hi : T true n (r_include R).
Let Hpw := T_weak _ _ _ Hp.

Lemma T_name_class_le : T false n (name_class (S n)).
Proof. eapply T_weak. eapply T_le; [|apply T_name_class]. lia. Qed.
Lemma T_named kw c : kw <> [] -> T true (S n) (named_pattern (S n) R kw c).
Proof.
  intros Hk. unfold named_pattern. eapply T_bindS; [apply T_tag; exact Hk|]. intros.
  pose proof T_name_class_le. Tl.
Qed.
Lemma T_braced kw c : kw <> [] -> T true (S n) (braced_pattern R kw c).
Proof. intros Hk. unfold braced_pattern. eapply T_bindS; [apply T_tag; exact Hk|]. intros. Tl. Qed.
Lemma T_params m : m <= S n -> T false m (params (S n)).
Proof.
  intros Hm. unfold params. repeat (apply T_seq; [Tl | intros ?]); Tl.
  eapply T_sep0; [apply T_sc1|]. eapply T_le; [exact Hm|]. apply T_param.
Qed.
Lemma T_except : T true (S n) (except_pattern R).
Proof. unfold except_pattern. eapply T_bindS; [T0|]. intros. Tl. Qed.
Lemma T_prim : T true (S n) (prim (S n) R).
Proof.
  unfold prim. repeat apply T_or.
  - apply T_named; discriminate.
  - apply T_named; discriminate.
  - apply T_braced; discriminate.
  - apply T_braced; discriminate.
  - unfold datatype_value_pattern. apply T_seq2; [apply (T_opt true); apply T_dtname|]. intros. apply T_seq2; [Tl|]. intros.
    apply T_seq1; [apply T_literal | intros; T0].
  - unfold datatype_param_pattern. apply T_seq1; [apply T_dtname|]. intros. apply T_seq; [apply (T_opt false); apply T_params; lia|].
    intros. apply T_seq; [|intros; T0]. apply (T_opt false). apply T_seq; [Tl|]. intros. eapply T_weak. apply T_except.
  - T0. apply T_identifier.
  - apply T_seq1; [T0 | intros; Tl].
  - T0; T0.
  - T0; T0.
  - T0; T0.
  - unfold external_pattern. apply T_seq1; [T0 | intros; Tl]. apply T_opt_inherit.
  - unfold grammar_pattern. eapply T_bindS; [T0|]. intros. repeat (apply T_seq; [Tl | intros ?]); Tl.
    eapply T_sep0; [apply T_sc1 | exact Hg].
  - unfold group_pattern. eapply T_bindS; [T0|]. intros. Tl.
Qed.
Lemma T_infix op c a : op <> [] -> T true (S n) (infix R op c a).
Proof. intros Hop. unfold infix. eapply T_bindS; [apply T_tag; exact Hop|]. intros. Tl. Qed.
Lemma T_postfix op c a : op <> [] -> T true (S n) (postfix op c a).
Proof. intros Hop. unfold postfix. apply T_seq1; [apply T_tag; exact Hop | intros; T0]. Qed.
Lemma T_op_loop : forall m a s, List.length s < m -> List.length s < S n ->
  match op_loop R m a s with
  | PFuel => False
  | POk _ r => suffix r s
  | PInc => ~ Closed s
  | PPanic x => x = PUnwrapNone /\ HasFollow s
  | _ => True
  end.
Proof.
  induction m as [|m IH]; intros a s Hm Hs; [lia|]. cbn [op_loop].
  pose proof (T_sc0 (S n) s Hs) as H0. destruct (sc0 s) as [u i | | | | x |]; auto. destruct H0 as [H0 _].
  pose proof (suffix_len _ _ H0) as Hl.
  assert (Hstep : forall p, T true (S n) p ->
    match (let* q := p in op_loop R m q) i with
    | PFuel => False | POk _ r => suffix r s | PInc => ~ Closed s
    | PPanic x => x = PUnwrapNone /\ HasFollow s | _ => True end).
  { intros p Tp. unfold pbind. specialize (Tp i ltac:(lia)). destruct (p i) as [q r | | | | x |]; auto.
    - destruct Tp as [H1 H2]. specialize (H2 eq_refl). specialize (IH q r ltac:(lia) ltac:(lia)).
      pose proof (suffix_trans _ _ _ H1 H0). destruct (op_loop R m q r); auto.
      + eapply suffix_trans; eauto.
      + intros H5. apply IH. eapply suffix_lf; eauto.
      + destruct IH as [-> H5]. split; [reflexivity|]. eapply suffix_follow; eauto.
    - intros H5. apply Tp. eapply suffix_lf; eauto.
    - destruct Tp as [-> H5]. split; [reflexivity|]. eapply suffix_follow; eauto. }
  repeat match goal with
  | |- match (if looks_at ?t i then _ else _) with _ => _ end => destruct (looks_at t i)
  end; try (apply Hstep; first [apply T_infix | apply T_postfix]; discriminate); apply suffix_refl.
Qed.
Lemma T_pattern_body : T true (S n) (pattern_body (S n) R).
Proof.
  unfold pattern_body. apply T_seq2; [apply T_maybe|]. intros. apply T_seq1; [apply T_prim|]. intros p.
  apply T_seq; [apply T_follow|]. intros _ s Hs. pose proof (T_op_loop (S (List.length s)) p s ltac:(lia) Hs) as H.
  destruct (op_loop R _ p s); auto. split; [exact H | discriminate].
Qed.
Lemma T_assignment {A} nm (c : str -> method -> spat -> A) : T true (S n) nm -> T true (S n) (assignment R nm c).
Proof.
  intros Hn. unfold assignment. eapply T_bindS; [exact Hn|]. intros. repeat (apply T_seq; [Tl | intros ?]); Tl.
  eapply T_weak. apply T_assign.
Qed.
Lemma T_start : T true (S n) start_name. Proof. unfold start_name. T0; T0. Qed.
Lemma T_div {A B} item (c : list A -> B) : T true n item -> T true (S n) (div_content item c).
Proof.
  intros H. unfold div_content. eapply T_bindS; [T0|]. intros. repeat (apply T_seq; [Tl | intros ?]); Tl.
  eapply T_sep0; [apply T_sc1 | exact H].
Qed.
Lemma T_include : T true (S n) (include_ R).
Proof.
  unfold include_. eapply T_bindS; [T0|]. intros. repeat (apply T_seq; [Tl | intros ?]); Tl.
  - apply T_opt_inherit.
  - unfold overrides. repeat (apply T_seq; [Tl | intros ?]); Tl. eapply T_sep0; [apply T_sc1 | exact Hi].
Qed.
Lemma T_grammar_body : T true (S n) (grammar_body (S n) R).
Proof.
  unfold grammar_body. repeat apply T_or.
  - apply T_assignment, T_start.
  - apply T_assignment, T_identifier.
  - apply T_div; exact Hg.
  - apply T_include.
  - T0. apply T_annotation.
Qed.
Lemma T_include_body : T true (S n) (include_body (S n) R).
Proof.
  unfold include_body. apply T_seq2; [apply T_maybe|]. intros. repeat apply T_or.
  - T0. apply T_annotation.
  - apply T_assignment, T_identifier.
  - apply T_assignment, T_start.
  - apply T_div; exact Hi.
Qed.
End Bodies.

Lemma T_parsers n : T true n (r_pattern (parsers n)) /\ T true n (r_grammar (parsers n)) /\ T true n (r_include (parsers n)).
Proof.
  induction n as [|n (H1 & H2 & H3)]; [repeat split; intros s Hs; lia|]. cbn [parsers r_pattern r_grammar r_include].
  split; [|split]; [apply T_pattern_body | apply T_grammar_body | apply T_include_body]; assumption.
Qed.
Lemma T_top n : T true n (top_level n).
Proof.
  destruct (T_parsers n) as (H1 & H2 & H3). unfold top_level. apply T_seq2; [eapply T_sep0; [apply T_sc1 | apply T_decl]|].
  intros. apply T_seq2; [Tl|]. intros. apply T_seq1; [|intros; T0]. T0; T0; [eapply T_sep1; [apply T_sc1 | exact H2] | exact H1].
Qed.
Lemma T_schema s :
  match p_schema (S (List.length s)) s with
  | PFuel => False
  | POk _ r => r = []
  | PInc => ~ Closed s
  | PPanic x => x = PUnwrapNone /\ HasFollow s
  | _ => True
  end.
Proof.
  unfold p_schema, all_consuming.
  assert (H : T true (S (List.length s)) (sc0 ;* let* x := top_level (S (List.length s)) in sc0 ;* pret x)).
  { apply T_seq2; [Tl|]. intros. apply T_seq1; [apply T_top | intros; Tl]. }
  specialize (H s ltac:(lia)). destruct ((sc0 ;* let* x := top_level (S (List.length s)) in sc0 ;* pret x) s) as [a r | | | | x |]; auto.
  destruct r; auto.
Qed.

(** The parser answers on every text, within the budget [parse_compact] gives it. *)
Lemma parse_total text : parse_compact text <> ParseFuel.
Proof. unfold parse_compact. pose proof (T_schema text). destruct (p_schema _ text); congruence. Qed.
Lemma open_dec s : OpenComment s \/ Closed s.
Proof.
  induction s as [|c s IH]; [right; intros ([|? ?] & b & E & _); discriminate E|].
  destruct IH as [(a & b & -> & Hb) | IH]; [left; exists (c :: a), b; auto|].
  destruct (N.eq_dec c 35) as [-> | Hc].
  - destruct (Forall_dec (fun c => c <> 10%N)) with (l := s) as [H | H].
    + intros x. destruct (N.eq_dec x 10); [right | left]; tauto.
    + left. exists [], s. auto.
    + right. intros ([|d a] & b & E & Hb); [injection E as ->; contradiction|]. injection E as _ ->. apply IH. exists a, b. auto.
  - right. intros ([|d a] & b & E & Hb); [injection E as -> _; contradiction|]. injection E as _ ->. apply IH. exists a, b. auto.
Qed.
(** the parser panics only on a text whose last line contains [#] ([unimplemented!] on
    Err::Incomplete) or which contains [>>] ([unwrap] of a missing initial annotation) *)
Lemma parse_panic text p : parse_compact text = ParsePanic p ->
  (p = PUnimplemented /\ OpenComment text) \/ (p = PUnwrapNone /\ HasFollow text).
Proof.
  unfold parse_compact. pose proof (T_schema text) as H. destruct (open_dec text) as [Ho | Hc];
  destruct (p_schema _ text); try discriminate; intros [= <-]; tauto.
Qed.
Lemma parse_no_panic text p : ~ OpenComment text -> ~ HasFollow text -> parse_compact text <> ParsePanic p.
Proof. intros H1 H2 H. apply parse_panic in H as [[_ H] | [_ H]]; contradiction. Qed.
