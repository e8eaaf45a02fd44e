(** * DiagProof: what the "Expected ..." help lists, and when a diagnostic can be made. *)
From Coq Require Import String Permutation.
From Verif Require Import Base Datatype Store Deriv Events Lang LangFacts Wp Doc Accept Compile Steps Reach Diag.
Open Scope monad_scope.

(** ** Specification *)
(** the parts of the expected pattern that describe the rest of the current element *)
Inductive Part (st : store) : pid -> pid -> Prop :=
| Pt_self id : Part st id id
| Pt_choice_l id l r n g : nth_error (pats st) id = Some (PChoice l r n) -> Part st l g -> Part st id g
| Pt_choice_r id l r n g : nth_error (pats st) id = Some (PChoice l r n) -> Part st r g -> Part st id g
| Pt_inter_l id l r n g : nth_error (pats st) id = Some (PInterleave l r n) -> Part st l g -> Part st id g
| Pt_inter_r id l r n g : nth_error (pats st) id = Some (PInterleave l r n) -> Part st r g -> Part st id g
| Pt_group_l id l r n g : nth_error (pats st) id = Some (PGroup l r n) -> Part st l g -> Part st id g
| Pt_group_r id l r n g : nth_error (pats st) id = Some (PGroup l r n) -> Part st r g -> Part st id g
| Pt_more id p n g : nth_error (pats st) id = Some (POneOrMore p n) -> Part st p g -> Part st id g
| Pt_list id p g : nth_error (pats st) id = Some (PList p) -> Part st p g -> Part st id g
| Pt_after id p q g : nth_error (pats st) id = Some (PAfter p q) -> Part st p g -> Part st id g.
(** no optional part is followed by another part *)
Definition NoSkip (st : store) (id : pid) : Prop :=
  forall g l r n, Part st id g -> nth_error (pats st) g = Some (PGroup l r n) -> nul st l = false.

(** ** The elements an open tag derivative can start *)
Inductive First (st : store) (nm : qname) : pat -> Prop :=
| F_element nc p : contains nc nm = true -> First st nm (PElement nc p)
| F_choice_l l r n x : nth_error (pats st) l = Some x -> First st nm x -> First st nm (PChoice l r n)
| F_choice_r l r n x : nth_error (pats st) r = Some x -> First st nm x -> First st nm (PChoice l r n)
| F_inter_l l r n x : nth_error (pats st) l = Some x -> First st nm x -> First st nm (PInterleave l r n)
| F_inter_r l r n x : nth_error (pats st) r = Some x -> First st nm x -> First st nm (PInterleave l r n)
| F_group_l l r n x : nth_error (pats st) l = Some x -> First st nm x -> First st nm (PGroup l r n)
| F_group_r l r n x y : nth_error (pats st) l = Some y -> is_nullable y = true -> nth_error (pats st) r = Some x -> First st nm x -> First st nm (PGroup l r n)
| F_more p n x : nth_error (pats st) p = Some x -> First st nm x -> First st nm (POneOrMore p n)
| F_after p q x : nth_error (pats st) p = Some x -> First st nm x -> First st nm (PAfter p q).
Lemma First_grows a b nm x : grows a b -> First a nm x -> First b nm x.
Proof. intros H F; induction F; [apply F_element; assumption|..]; repeat match goal with E : nth_error (pats a) _ = Some _ |- _ => apply (grows_nth _ _ _ _ H) in E end; eauto using First. Qed.

Definition live (st : store) (i : pid) : Prop := exists p, nth_error (pats st) i = Some p /\ is_not_allowed p = false.
Lemma na_dead st i st' s : sized st -> not_allowed st = Ok (i, st') -> grows st' s -> ~ live s i.
Proof.
  intros HS E Hg (p & Hp & Hn). destruct (mono_na _ _ _ E) as [_ HS']. specialize (HS' HS). destruct HS' as (_ & _ & H3).
  assert (Hm : lookup_pat PNotAllowed (memo st') = Some i).
  { unfold not_allowed, push in E. destruct (max_patterns <? _)%N; [discriminate|]. destruct (lookup_pat PNotAllowed (memo st)) as [j|] eqn:Ej; injection E as <- <-; [exact Ej|].
    cbn [memo lookup_pat]. destruct (pat_eq_dec PNotAllowed PNotAllowed); [reflexivity | contradiction]. }
  specialize (H3 _ _ Hm eq_refl). rewrite (grows_nth _ _ _ _ Hg H3) in Hp. injection Hp as <-. discriminate Hn.
Qed.
Lemma patt_Ok i st p st' : patt i st = Ok (p, st') -> nth_error (pats st) i = Some p /\ st' = st.
Proof. unfold patt. destruct (nth_error (pats st) i); [|discriminate]. intros [= <- <-]. split; reflexivity. Qed.
Ltac step E := unfold bind at 1 in E;
  match type of E with match ?c with _ => _ end = _ => let a := fresh "x" in let s := fresh "st" in let H := fresh "E" in destruct c as [[a s]| |] eqn:H; try discriminate E end.
Ltac rd E := unfold bind at 1 in E;
  match type of E with match ?c with _ => _ end = _ => let a := fresh "x" in let s := fresh "st" in let H := fresh "R" in destruct c as [[a s]| |] eqn:H; try discriminate E; apply patt_Ok in H as [H ->] end.
Lemma choice_live l r st i st' s : choice l r st = Ok (i, st') -> grows st' s -> live s i -> live s l \/ live s r.
Proof.
  intros E Hg HL. pose proof (mono_choice l r _ _ _ E) as [HG _]. unfold choice in E. rd E. rd E.
  destruct (is_not_allowed x) eqn:Ex; [injection E as <- <-; right; exact HL|]. left. exists x. split; [eapply grows_nth; [exact Hg|]; eapply grows_nth; eassumption | exact Ex].
Qed.
Lemma after_live fuel p f st i st' s : sized st -> apply_after fuel p f st = Ok (i, st') -> grows st' s -> live s i -> is_not_allowed p = false.
Proof. intros HS E Hg HL. destruct p; try reflexivity. destruct fuel; [discriminate E|]. cbn [apply_after] in E. exfalso. exact (na_dead _ _ _ _ HS E Hg HL). Qed.
Lemma open_live fuel nm : forall x st i st' s, sized st -> start_tag_open_deriv fuel x nm st = Ok (i, st') -> grows st' s -> live s i -> First s nm x.
Proof.
  induction fuel as [|fuel IH]; intros x st i st' s HS E Hg HL; [discriminate E|]. cbn [start_tag_open_deriv] in E.
  assert (Hafter : forall (y : pat) s0 d (f : pid -> M pid) s1, sized s0 -> start_tag_open_deriv fuel y nm s0 = Ok (d, s1) -> (forall q, mono (f q)) ->
    forall xd j s2 s3, nth_error (pats s1) d = Some xd -> apply_after fuel xd f s1 = Ok (j, s2) -> grows s2 s3 -> live s3 j -> First s3 nm y).
  { intros y s0 d f s1 HSs E1 Hf xd j s2 s3 Hd E2 Hg3 HLj. destruct (mono_open _ _ _ _ _ _ E1) as [Hg1 Hs1]. pose proof (after_live _ _ _ _ _ _ _ (Hs1 HSs) E2 Hg3 HLj) as Hn.
    destruct (mono_apply_after fuel f Hf xd _ _ _ E2) as [Hg2 _]. eapply IH; [exact HSs | exact E1 | eapply grows_trans; eassumption|]. exists xd. split; [|exact Hn].
    eapply grows_nth; [exact Hg3|]. eapply grows_nth; eassumption. }
  destruct x; try (exfalso; exact (na_dead _ _ _ _ HS E Hg HL)); try discriminate E.
  - rd E. rd E. step E. step E. destruct (mono_open _ _ _ _ _ _ E0) as [G1 S1]. destruct (mono_open _ _ _ _ _ _ E1) as [G2 S2]. destruct (mono_choice _ _ _ _ _ E) as [G3 _].
    assert (G4 := grows_trans _ _ _ G3 Hg). assert (G5 := grows_trans _ _ _ G2 G4). assert (G6 := grows_trans _ _ _ G1 G5).
    destruct (choice_live _ _ _ _ _ _ E Hg HL) as [Hl|Hl]; [eapply F_choice_l | eapply F_choice_r]; try (eapply grows_nth; [exact G6 | eassumption]).
    + eapply IH; [exact HS | exact E0 | exact G5 | exact Hl].
    + eapply IH; [exact (S1 HS) | exact E1 | exact G4 | exact Hl].
  - rd E. rd E. step E. rd E. step E. step E. rd E. step E.
    destruct (mono_open _ _ _ _ _ _ E0) as [G1 S1].
    assert (Mi : forall q, mono (interleave q r)) by (intros; apply mono_interleave). assert (Mj : forall q, mono (interleave l q)) by (intros; apply mono_interleave).
    destruct (mono_apply_after _ _ Mi _ _ _ _ E1) as [G2 S2]. destruct (mono_open _ _ _ _ _ _ E2) as [G3 S3]. destruct (mono_apply_after _ _ Mj _ _ _ _ E3) as [G4 S4]. destruct (mono_choice _ _ _ _ _ E) as [G5 _].
    assert (H1 := grows_trans _ _ _ G5 Hg). assert (H2 := grows_trans _ _ _ G4 H1). assert (H3 := grows_trans _ _ _ G3 H2). assert (H4 := grows_trans _ _ _ G2 H3). assert (H5 := grows_trans _ _ _ G1 H4).
    destruct (choice_live _ _ _ _ _ _ E Hg HL) as [Hl|Hl]; [eapply F_inter_l | eapply F_inter_r]; try (eapply grows_nth; [exact H5 | eassumption]).
    + eapply Hafter; [exact HS | exact E0 | exact Mi | eassumption | exact E1 | exact H3 | exact Hl].
    + eapply Hafter; [exact (S2 (S1 HS)) | exact E2 | exact Mj | eassumption | exact E3 | exact H1 | exact Hl].
  - rd E. rd E. step E. rd E. step E.
    destruct (mono_open _ _ _ _ _ _ E0) as [G1 S1]. assert (Mi : forall q, mono (group q r)) by (intros; apply mono_group). destruct (mono_apply_after _ _ Mi _ _ _ _ E1) as [G2 S2].
    destruct (is_nullable x) eqn:En.
    + rd E. step E. destruct (mono_open _ _ _ _ _ _ E2) as [G3 S3]. destruct (mono_choice _ _ _ _ _ E) as [G4 _].
      assert (H1' := grows_trans _ _ _ G4 Hg). assert (H2' := grows_trans _ _ _ G3 H1'). assert (H3' := grows_trans _ _ _ G2 H2'). assert (H4' := grows_trans _ _ _ G1 H3').
      destruct (choice_live _ _ _ _ _ _ E Hg HL) as [Hl|Hl].
      * eapply F_group_l; [eapply grows_nth; [exact H4' | eassumption]|]. eapply Hafter; [exact HS | exact E0 | exact Mi | eassumption | exact E1 | exact H2' | exact Hl].
      * eapply F_group_r; [eapply grows_nth; [exact H4' | eassumption] | exact En | eapply grows_nth; [exact H2' | eassumption]|]. eapply IH; [exact (S2 (S1 HS)) | exact E2 | exact H1' | exact Hl].
    + injection E as <- <-. eapply F_group_l; [eapply grows_nth; [exact (grows_trans _ _ _ G1 (grows_trans _ _ _ G2 Hg)) | eassumption]|].
      eapply Hafter; [exact HS | exact E0 | exact Mi | eassumption | exact E1 | exact Hg | exact HL].
  - rd E. step E. rd E. assert (Mi : forall q, mono (let* o := one_or_more p in let* e := empty in let* c := choice o e in group q c)) by (intros; mono2).
    destruct (mono_open _ _ _ _ _ _ E0) as [G1 S1]. destruct (mono_apply_after _ _ Mi _ _ _ _ E) as [G2 S2].
    eapply F_more; [eapply grows_nth; [exact (grows_trans _ _ _ G1 (grows_trans _ _ _ G2 Hg)) | eassumption]|]. eapply Hafter; [exact HS | exact E0 | exact Mi | eassumption | exact E | exact Hg | exact HL].
  - destruct (contains nc nm) eqn:Ec; [apply F_element; exact Ec | exfalso; exact (na_dead _ _ _ _ HS E Hg HL)].
  - rd E. step E. rd E. assert (Mi : forall q, mono (after q p2)) by (intros; apply mono_after).
    destruct (mono_open _ _ _ _ _ _ E0) as [G1 S1]. destruct (mono_apply_after _ _ Mi _ _ _ _ E) as [G2 S2].
    eapply F_after; [eapply grows_nth; [exact (grows_trans _ _ _ G1 (grows_trans _ _ _ G2 Hg)) | eassumption]|]. eapply Hafter; [exact HS | exact E0 | exact Mi | eassumption | exact E | exact Hg | exact HL].
Qed.

(** ** [head] *)
Lemma insert_In x l y : In y (insert x l) <-> y = x \/ In y l.
Proof. unfold insert. destruct (in_dec pat_eq_dec x l); cbn; [|intuition]. split; [auto|]. intros [->|]; assumption. Qed.
Lemma head_keeps fuel st : forall acc id h x, head fuel st acc id = Ok h -> In x acc -> In x h.
Proof.
  induction fuel as [|fuel IH]; intros acc id h x E Hx; [discriminate E|]. cbn [head] in E. destruct (nth_error (pats st) id) as [p|]; [|discriminate E].
  destruct p; try (injection E as <-; try apply insert_In; auto; fail); try discriminate E; try (eapply IH; eassumption).
  - destruct (head fuel st acc l) as [r1| |] eqn:E1; try discriminate E. eapply IH; [exact E|]. eapply IH; eassumption.
  - destruct (head fuel st acc l) as [r1| |] eqn:E1; try discriminate E. eapply IH; [exact E|]. eapply IH; eassumption.
  - destruct (nth_error (pats st) l) as [x1|]; [|discriminate E]. destruct (is_nullable x1); [eapply IH; eassumption|].
    destruct (head fuel st acc l) as [r1| |] eqn:E1; try discriminate E. eapply IH; [exact E|]. eapply IH; eassumption.
Qed.
Lemma head_covers fuel st s nm : grows st s -> forall id acc h x, head fuel st acc id = Ok h -> nth_error (pats s) id = Some x -> First s nm x -> NoSkip st id ->
  exists nc p, In (PElement nc p) h /\ contains nc nm = true.
Proof.
  intros Hg. induction fuel as [|fuel IH]; intros id acc h x E Hx F HN; [discriminate E|]. cbn [head] in E.
  destruct (nth_error (pats st) id) as [p|] eqn:Ep; [|discriminate E]. rewrite (grows_nth _ _ _ _ Hg Ep) in Hx. injection Hx as <-.
  inversion F; subst.
  - injection E as <-. exists nc, p0. split; [apply insert_In; auto | assumption].
  - destruct (head fuel st acc l) as [r1| |] eqn:E1; try discriminate E. edestruct IH as (nc & q & K1 & K2); [exact E1 | eassumption | eassumption | intros g a b n' P; apply HN; eapply Pt_choice_l; eassumption|].
    exists nc, q. split; [eapply head_keeps; eassumption | exact K2].
  - destruct (head fuel st acc l) as [r1| |] eqn:E1; try discriminate E. eapply IH; [exact E | eassumption | eassumption | intros g a b n' P; apply HN; eapply Pt_choice_r; eassumption].
  - destruct (head fuel st acc l) as [r1| |] eqn:E1; try discriminate E. edestruct IH as (nc & q & K1 & K2); [exact E1 | eassumption | eassumption | intros g a b n' P; apply HN; eapply Pt_inter_l; eassumption|].
    exists nc, q. split; [eapply head_keeps; eassumption | exact K2].
  - destruct (head fuel st acc l) as [r1| |] eqn:E1; try discriminate E. eapply IH; [exact E | eassumption | eassumption | intros g a b n' P; apply HN; eapply Pt_inter_r; eassumption].
  - pose proof (HN id l r n (Pt_self _ _) Ep) as Hnul. unfold nul in Hnul. destruct (nth_error (pats st) l) as [x1|] eqn:El; [|discriminate E]. rewrite Hnul in E.
    destruct (head fuel st acc l) as [r1| |] eqn:E1; try discriminate E. edestruct IH as (nc & q & K1 & K2); [exact E1 | eassumption | eassumption | intros g a b n' P; apply HN; eapply Pt_group_l; eassumption|].
    exists nc, q. split; [eapply head_keeps; eassumption | exact K2].
  - pose proof (HN id l r n (Pt_self _ _) Ep) as Hnul. unfold nul in Hnul. destruct (nth_error (pats st) l) as [x1|] eqn:El; [|discriminate E].
    match goal with H : nth_error (pats s) l = Some _ |- _ => rewrite (grows_nth _ _ _ _ Hg El) in H; injection H as -> end. congruence.
  - eapply IH; [exact E | eassumption | eassumption | intros g a b n' P; apply HN; eapply Pt_more; eassumption].
  - eapply IH; [exact E | eassumption | eassumption | intros g a b n' P; apply HN; eapply Pt_after; eassumption].
Qed.
(** only parts of the rest of the current element are listed *)
Lemma head_parts fuel st : forall id acc h x, head fuel st acc id = Ok h -> In x h -> In x acc \/ exists g, Part st id g /\ nth_error (pats st) g = Some x.
Proof.
  induction fuel as [|fuel IH]; intros id acc h x E Hx; [discriminate E|]. cbn [head] in E. destruct (nth_error (pats st) id) as [p|] eqn:Ep; [|discriminate E].
  assert (Hleaf : Ok (insert p acc) = Ok h -> In x acc \/ exists g, Part st id g /\ nth_error (pats st) g = Some x).
  { intros [= <-]. apply insert_In in Hx as [->|Hx]; [right; exists id; split; [apply Pt_self | exact Ep] | left; exact Hx]. }
  assert (Hboth : forall l r, (forall g, Part st l g -> Part st id g) -> (forall g, Part st r g -> Part st id g) -> rbind (head fuel st acc l) (fun q => head fuel st q r) = Ok h ->
     In x acc \/ exists g, Part st id g /\ nth_error (pats st) g = Some x).
  { intros l r Hl Hr Eb. destruct (head fuel st acc l) as [q| |] eqn:E1; try discriminate Eb. cbn [rbind] in Eb. destruct (IH _ _ _ _ Eb Hx) as [Hq|(g & H1 & H2)]; [|right; eauto].
    destruct (IH _ _ _ _ E1 Hq) as [Ha|(g & H1 & H2)]; [left; exact Ha | right; eauto]. }
  assert (Hone : forall l, (forall g, Part st l g -> Part st id g) -> head fuel st acc l = Ok h -> In x acc \/ exists g, Part st id g /\ nth_error (pats st) g = Some x).
  { intros l Hl Eb. destruct (IH _ _ _ _ Eb Hx) as [Ha|(g & H1 & H2)]; [left; exact Ha | right; eauto]. }
  destruct p; try (exact (Hleaf E)); try discriminate E; try (injection E as <-; left; exact Hx).
  - eapply Hboth; [| |exact E]; intros g P; [eapply Pt_choice_l | eapply Pt_choice_r]; eassumption.
  - eapply Hboth; [| |exact E]; intros g P; [eapply Pt_inter_l | eapply Pt_inter_r]; eassumption.
  - destruct (nth_error (pats st) l) as [x1|]; [|discriminate E]. destruct (is_nullable x1).
    + eapply Hone; [|exact E]. intros g P; eapply Pt_group_l; eassumption.
    + eapply Hboth; [| |exact E]; intros g P; [eapply Pt_group_l | eapply Pt_group_r]; eassumption.
  - eapply Hone; [|exact E]. intros g P; eapply Pt_more; eassumption.
  - eapply Hone; [|exact E]. intros g P; eapply Pt_list; eassumption.
  - eapply Hone; [|exact E]. intros g P; eapply Pt_after; eassumption.
Qed.

(** ** [head] ends, without panic, on the patterns of a legal schema *)
Section Total.
Variable O : oracles.
Variable allowed : panic -> Prop.
Lemma head_total st m j t ts id : KM O allowed st m j t ts id -> exists n f, forall k, n <= k -> forall acc, head k st acc id = Ok (f acc).
Proof.
  assert (Hleaf : forall id p, nth_error (pats st) id = Some p -> match p with PEmpty | PText | PNotAllowed => True | _ => False end -> exists n f, forall k, n <= k -> forall acc, head k st acc id = Ok (f acc)).
  { intros i p Hp Hc. exists 1, (fun a => a). intros [|k] Hk acc; [lia|]. cbn [head]. rewrite Hp. destruct p; try contradiction; reflexivity. }
  assert (Hins : forall id p, nth_error (pats st) id = Some p -> match p with PAttribute _ _ | PElement _ _ | PDatatype _ | PDatatypeValue _ | PDatatypeExcept _ _ => True | _ => False end ->
     exists n f, forall k, n <= k -> forall acc, head k st acc id = Ok (f acc)).
  { intros i p Hp Hc. exists 1, (insert p). intros [|k] Hk acc; [lia|]. cbn [head]. rewrite Hp. destruct p; try contradiction; reflexivity. }
  assert (Hone : forall id p q, nth_error (pats st) id = Some p -> match p with POneOrMore x _ | PList x | PAfter x _ => x = q | _ => False end ->
     (exists n f, forall k, n <= k -> forall acc, head k st acc q = Ok (f acc)) -> exists n f, forall k, n <= k -> forall acc, head k st acc id = Ok (f acc)).
  { intros i p q Hp Hc (n & f & Hn). exists (S n), f. intros [|k] Hk acc; [lia|]. cbn [head]. rewrite Hp. destruct p; try contradiction; subst; apply Hn; lia. }
  induction 1 as [m j t ts id l r n Hn HKl IHl HKr IHr Hf|m j t ts id Hn|m j t t' ts id p1 p2 Hn H1 IH1 H2 IH2
    |m j t id l r n Hn HKl IHl HKr IHr Hf|m j t id l r n Hn HKl IHl HKr IHr Hf Hc|m j t id p n Hn H1 IH1 Hf|m j t id Hn|m j t id Hn Ht
    |m j j' t id nc p Hn H1 IH1|m j t id nc p Hn Ht|m j id d Hn Hd|m j id v Hn Hd|m j id d e Hn Hd He|m j id p Hn H1 IH1];
    try (eapply Hleaf; [exact Hn | exact I]); try (eapply Hins; [exact Hn | exact I]); try (eapply Hone; [exact Hn | reflexivity | assumption]).
  - destruct IHl as (n1 & f1 & K1), IHr as (n2 & f2 & K2). exists (S (n1 + n2)), (fun a => f2 (f1 a)). intros [|k] Hk acc; [lia|]. cbn [head]. rewrite Hn, K1 by lia. cbn [rbind]. apply K2; lia.
  - destruct IHl as (n1 & f1 & K1), IHr as (n2 & f2 & K2). destruct (inr_nth _ _ (K_inr O allowed _ _ _ _ _ HKl)) as [x Hx].
    exists (S (n1 + n2)), (fun a => if is_nullable x then f1 a else f2 (f1 a)). intros [|k] Hk acc; [lia|]. cbn [head]. rewrite Hn, Hx. destruct (is_nullable x); [apply K1; lia|]. rewrite K1 by lia. cbn [rbind]. apply K2; lia.
  - destruct IHl as (n1 & f1 & K1), IHr as (n2 & f2 & K2). exists (S (n1 + n2)), (fun a => f2 (f1 a)). intros [|k] Hk acc; [lia|]. cbn [head]. rewrite Hn, K1 by lia. cbn [rbind]. apply K2; lia.
Qed.
Variable T : nameclass -> ctype.
Hypothesis allowed_push : allowed PTooManyPatterns.
(** after any accepted or rejected tokens, the state is one [head] can describe *)
Lemma run_inv toks : forall v seen, Accept.Inv O allowed T v -> (seen = true -> v_stack v <> []) -> stream_ok seen toks ->
  exists n r, (forall m, n <= m -> run O m v toks = r) /\ match r with Ok (v', e) => Accept.Inv O allowed T v' | Panic p => allowed p | OutOfFuel => False end.
Proof.
  induction toks as [|tk toks IH]; intros v seen HI Hs Hok; [exists 0, (Ok (v, None)); split; [reflexivity | exact HI]|].
  assert (Ht : tok_ok v tk). { destruct tk as [| | | | | |nm [dd|]|pp ll|pp ll vv|[|pp ll|]|s0 tx|tx]; cbn in *; auto; apply Hs, Hok. }
  destruct (validate_total O allowed T allowed_push v tk HI Ht) as (n & r & Hn & Hr). destruct r as [[v' e]|p|]; [| |contradiction].
  - destruct (validate_stack O n v tk v' e (Hn n (le_n n))) as (v1 & He & Hst).
    assert (Hrest : exists seen', (seen' = true -> v_stack v' <> []) /\ stream_ok seen' toks).
    { destruct tk as [| | | | | |nm [dd|]|pp ll|pp ll vv|[|pp ll|]|s0 tx|tx]; cbn in Hok;
        try (exists seen; split; [rewrite Hst; intros Es; eapply stack_effect_nil; [exact He | exact (Hs Es)] | try exact Hok; apply Hok]; fail).
      exists true; split; [|exact Hok]. rewrite Hst. cbn in He. injection He as <-. intros _; cbn. discriminate. }
    destruct Hrest as (seen' & Hs' & Hok'). destruct e as [e|].
    + exists n, (Ok (v', Some e)). split; [intros m Hm; cbn [run]; rewrite (Hn m Hm); reflexivity | exact Hr].
    + destruct (IH v' seen' Hr Hs' Hok') as (n2 & r2 & Hn2 & Hr2). exists (n + n2), r2. split; [|exact Hr2]. intros m Hm; cbn [run]; rewrite (Hn m) by lia; cbn [rbind]; apply Hn2; lia.
  - exists n, (Panic p). split; [|exact Hr]. intros m Hm; cbn [run]; rewrite (Hn m) by lia; reflexivity.
Qed.
End Total.

(** ** The ranges of entity errors lie in the text *)
Definition in_token (t : token) (e : verror) : Prop :=
  match e with
  | EUndefinedEntity _ lo hi | EInvalidEntity lo hi => exists s x, t = TText s x /\ lo <= hi /\ hi <= s + utf8_len x
  | EXml => False
  | _ => True
  end.
Lemma utf8_app a b : utf8_len (a ++ b) = utf8_len a + utf8_len b.
Proof. induction a as [|c a IH]; cbn [app utf8_len]; [reflexivity|]. rewrite IH; lia. Qed.
Lemma utf8_rev a : utf8_len (rev a) = utf8_len a.
Proof. induction a as [|c a IH]; cbn [rev utf8_len]; [reflexivity|]. rewrite utf8_app, IH. cbn [utf8_len]. lia. Qed.
Lemma utf8_width_pos c : 1 <= utf8_width c.
Proof. unfold utf8_width. repeat destruct (_ <? _)%N; lia. Qed.
Definition item_in (pos total : nat) (i : txt + verror) : Prop :=
  match i with
  | inl (TxEntity p name) => pos <= p /\ p + utf8_len name <= pos + total
  | inl _ => True
  | inr (EInvalidEntity lo hi) => lo <= hi <= pos + total
  | inr _ => False
  end.
Lemma numeric_in pos total off t : off + 1 + utf8_len t <= total -> item_in pos total (numeric_entity off t).
Proof.
  intros H. unfold numeric_entity. destruct t as [|c t]; [cbn; lia|]. cbn [utf8_len] in H. pose proof (utf8_width_pos c).
  repeat (match goal with |- item_in _ _ (if ?b then _ else _) => destruct b | |- item_in _ _ (match ?b with _ => _ end) => destruct b end); cbn; lia.
Qed.
Lemma entities_in pos total rest : forall off ie cur, off + utf8_len cur + utf8_len rest <= total -> (ie = true -> 1 <= off) -> Forall (item_in pos total) (parse_entities pos off ie cur rest).
Proof.
  induction rest as [|c rest IH]; intros off ie cur H Hi; cbn [parse_entities].
  - destruct cur as [|a cur]; [constructor|]. destruct ie; constructor; try constructor; cbn; [specialize (Hi eq_refl); lia | specialize (Hi eq_refl); cbn in H; lia].
  - cbn [utf8_len] in H. destruct ie.
    + destruct (c =? 59)%N eqn:Ec.
      * apply N.eqb_eq in Ec. subst c. change (utf8_width 59) with 1 in H. constructor.
        -- pose proof (utf8_rev cur) as Hr. destruct (rev cur) as [|h t].
           ++ cbn. cbn in Hr. lia.
           ++ cbn [utf8_len] in Hr. pose proof (utf8_width_pos h). destruct (h =? 35)%N eqn:Eh; [apply numeric_in; lia | cbn [item_in utf8_len]; lia].
        -- apply IH; [rewrite utf8_rev; cbn [utf8_len]; lia | discriminate].
      * apply IH; [cbn [utf8_len]; lia | exact Hi].
    + destruct (c =? 38)%N eqn:Ec.
      * apply N.eqb_eq in Ec. subst c. change (utf8_width 38) with 1 in H. constructor; [exact I|]. apply IH; [rewrite utf8_rev; cbn [utf8_len]; lia | lia].
      * apply IH; [cbn [utf8_len]; lia | exact Hi].
Qed.
Lemma fill_in ents pos total items : Forall (item_in pos total) items -> forall n b e, fill_buffer ents n b items = inr e ->
  match e with EUndefinedEntity _ lo hi | EInvalidEntity lo hi => lo <= hi <= pos + total | _ => False end.
Proof.
  induction 1 as [|i items Hi _ IH]; intros n b e; cbn [fill_buffer]; [discriminate|]. destruct i as [[p s|p name|p c]|er].
  - destruct (_ =? _); [discriminate | apply IH].
  - cbn in Hi. destruct (lookup_str name ents); [destruct (_ =? _); [discriminate | apply IH]|]. intros [= <-]. lia.
  - apply IH.
  - cbn in Hi. intros [= <-]. destruct er; try contradiction. exact Hi.
Qed.
Lemma text_data_in ents s x e : text_data ents s x = inr e -> in_token (TText s x) e.
Proof.
  unfold text_data. destruct (fill_buffer _ _ _ _) as [b|er] eqn:E; [destruct b; discriminate|]. intros [= ->].
  apply (fill_in _ s (utf8_len x)) in E; [|apply entities_in; cbn; [lia | discriminate]]. destruct e; try contradiction; cbn; exists s, x; intuition lia.
Qed.
Lemma atts_errors O fuel : forall atts p st e st', atts_deriv O fuel p atts st = Ok (inr e, st') -> exists t, e = ENotAllowed t.
Proof.
  induction atts as [|x atts IH]; intros p st e st' E; [discriminate E|]. cbn [atts_deriv] in E. step E. step E. destruct (is_not_allowed x1); [injection E as <- _; eexists; reflexivity | eapply IH; exact E].
Qed.
Lemma close_errors O fuel stk evt p st e st' : close_element_start O fuel stk evt p st = Ok (inr e, st') -> (exists t, e = ENotAllowed t) \/ exists q, e = EUndefinedPrefix q.
Proof.
  assert (Hl : forall q e, try_lookup_ns stk q = inr e -> exists q, e = EUndefinedPrefix q).
  { intros q e0. unfold try_lookup_ns. destruct q; [discriminate|]. destruct (lookup_ns stk _); [discriminate|]. intros [= <-]. eexists; reflexivity. }
  intros E. unfold close_element_start in E. step E. unfold lift, current_element in E0. destruct stk as [|el stk]; [discriminate E0|]. destruct (try_lookup_ns (el :: stk) (e_prefix el)) as [u|er] eqn:En; injection E0 as <- <-.
  2:{ injection E as <- _. right. eapply Hl; exact En. }
  step E. step E. destruct (is_not_allowed x0); [injection E as <- _; left; eexists; reflexivity|]. step E. unfold lift, current_attributes in E2. injection E2 as <- <-.
  destruct (resolve_attrs (el :: stk) (e_atts el)) as [atts|er] eqn:Ea.
  - step E. destruct x1 as [q|er]; [|injection E as <- _; left; eapply atts_errors; eassumption]. step E. destruct (is_not_allowed x1); [injection E as <- _; left; eexists; reflexivity|].
    step E. step E. destruct (is_not_allowed x3); [injection E as <- _; left; eexists; reflexivity | discriminate E].
  - injection E as <- _. right. clear - Ea Hl. revert er Ea. induction (e_atts el) as [|[[p l] v] as_ IH]; intros er Ea; [discriminate Ea|]. cbn [resolve_attrs] in Ea.
    destruct p as [|c p].
    + destruct (resolve_attrs (el :: stk) as_) as [r|e2]; [discriminate Ea|]. injection Ea as <-. apply IH. reflexivity.
    + destruct (try_lookup_ns (el :: stk) (c :: p)) as [u|e2] eqn:E2; [|injection Ea as <-; eapply Hl; exact E2].
      destruct (resolve_attrs (el :: stk) as_) as [r|e3]; [discriminate Ea|]. injection Ea as <-. apply IH. reflexivity.
Qed.
Lemma validate_error_in O fuel v t v' e : validate O fuel v t = Ok (v', Some e) -> in_token t e.
Proof.
  unfold validate. destruct (validate_step O fuel v t (v_store v)) as [[r st]| |] eqn:Es; cbn [rbind]; try discriminate. destruct (stack_effect v t) as [w| |]; cbn [rbind]; try discriminate.
  assert (Hr : forall er, r = inr er -> in_token t er).
  { intros er ->. unfold validate_step in Es. step Es.
    assert (Hc : forall (P : Prop), ((exists q, er = ENotAllowed q) \/ (exists q, er = EUndefinedPrefix q)) -> in_token t er) by (intros _ [[q ->]|[q ->]]; exact I).
    destruct t as [| | | | | |nm [dd|]|pp ll|pp ll vv|[|pp ll|]|s0 tx|tx]; try discriminate Es.
    - injection Es as <- _. exact I.
    - step Es. destruct x0; [discriminate Es|]. injection Es as -> _. apply (Hc True). eapply close_errors; exact E0.
    - step Es; discriminate Es.
    - step Es. destruct x0; [step Es; step Es; discriminate Es|]. injection Es as -> _. apply (Hc True). eapply close_errors; exact E0.
    - destruct (text_data (v_ents v) s0 tx) as [dd|e0] eqn:Et; [|injection Es as <- _; eapply text_data_in; exact Et].
      step Es. step Es. destruct (is_not_allowed x1); [injection Es as <- _; exact I | discriminate Es].
    - step Es; discriminate Es. }
  destruct r as [[new|]|er]; [|discriminate|].
  - destruct (patt new st) as [[x st2]| |]; cbn [rbind]; try discriminate. destruct (is_not_allowed x); [|discriminate]. intros [= _ <-]. exact I.
  - intros [= _ <-]. apply Hr; reflexivity.
Qed.
