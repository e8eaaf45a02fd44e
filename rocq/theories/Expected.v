(** * Expected: the elements the "Expected ..." help names, against the start tags that are accepted (C55). *)
From Coq Require Import String.
From Verif Require Import Base Datatype Store Deriv Events Lang LangFacts Wp Doc Accept Compile Steps Reach Diag DiagProof.
Open Scope monad_scope.

(** a whole start tag: its name, its attributes, its end *)
Definition start_tag (prefix local : str) (atts : list (str * str * str)) (e : element_end) : list token :=
  TElementStart prefix local :: map (fun '(p, l, v) => TAttribute p l v) atts ++ [TElementEnd e].

Lemma att_run O n atts : forall v toks r, run O n v (map (fun '(p, l, v) => TAttribute p l v) atts ++ toks) = Ok r -> v_stack v <> [] ->
  exists v1, run O n v1 toks = Ok r /\ v_store v1 = v_store v /\ v_cur v1 = v_cur v /\ v_stack v1 <> [].
Proof.
  induction atts as [|[[p l] x] atts IH]; intros v toks r H Hs; [exists v; auto|]. cbn [map app run] in H.
  destruct (validate O n v (TAttribute p l x)) as [[v1 e]| |] eqn:Ev; cbn [rbind] in H; try discriminate H.
  unfold validate, validate_step in Ev. destruct ((let* _ := patt (v_cur v) in ret (inl None)) (v_store v)) as [[a st]| |] eqn:E; cbn [rbind] in Ev; try discriminate Ev.
  step E. apply patt_Ok in E0 as [_ ->]. injection E as <- <-. cbn [stack_effect] in Ev. destruct (add_attr (v_stack v) p l x) as [stk| |] eqn:Ea; cbn [rbind] in Ev; try discriminate Ev.
  injection Ev as <- <-. destruct (IH _ _ _ H) as (v2 & H2 & E2 & E3 & E4).
  - cbn. unfold add_attr in Ea. destruct (v_stack v); [discriminate Ea|]. injection Ea as <-. discriminate.
  - exists v2. auto.
Qed.
Lemma close_first O n stk t p st q st' : sized st -> close_element_start O n stk t p st = Ok (inl q, st') ->
  exists nm, current_element stk = Ok (inl nm) /\ exists s, grows st s /\ First s nm p.
Proof.
  intros HS E. unfold close_element_start in E. step E. unfold lift in E0. destruct (current_element stk) as [[nm|er]| |] eqn:Ec; try discriminate E0; injection E0 as <- <-; [|discriminate E].
  exists nm. split; [reflexivity|]. step E. destruct (mono_open n p nm _ _ _ E0) as [HG _]. step E. apply patt_Ok in E1 as [Hx ->].
  destruct (is_not_allowed x0) eqn:En; [discriminate E|]. exists st0. split; [exact HG|]. eapply open_live; [exact HS | exact E0 | apply grows_refl|]. exists x0. split; assumption.
Qed.
Theorem covered O defs start v : reachable O defs start v -> forall prefix local atts e n v', e = EndOpen \/ e = EndEmpty ->
  run O n v (start_tag prefix local atts e) = Ok (v', None) -> forall m h, heads m (v_store v) (v_cur v) = Ok h -> NoSkip (v_store v) (v_cur v) ->
  exists nm nc p, current_element (v_stack v') = Ok (inl nm) /\ In (PElement nc p) h /\ contains nc nm = true.
Proof.
  intros HR prefix local atts e n v' He H m h Hh HN. destruct (reachable_facts _ _ _ _ HR) as (_ & _ & HS). unfold start_tag in H. cbn [run] in H.
  destruct (validate O n v (TElementStart prefix local)) as [[v1 e1]| |] eqn:Ev; cbn [rbind] in H; try discriminate H.
  unfold validate, validate_step in Ev. destruct ((let* _ := patt (v_cur v) in ret (inl None)) (v_store v)) as [[a st]| |] eqn:E; cbn [rbind] in Ev; try discriminate Ev.
  step E. apply patt_Ok in E0 as [_ ->]. injection E as <- <-. cbn [stack_effect rbind] in Ev. injection Ev as <- <-.
  apply att_run in H as (v2 & H & E1 & E2 & E3); [|cbn; discriminate]. cbn in E1, E2. cbn [run] in H.
  destruct (validate O n v2 (TElementEnd e)) as [[v3 e3]| |] eqn:Ev; cbn [rbind] in H; try discriminate H. destruct e3 as [e3|]; [discriminate H|]. injection H as ->.
  assert (Hst : v_stack v' = v_stack v2). { destruct (validate_stack _ _ _ _ _ _ Ev) as (w & Hw & ->). destruct He as [-> | ->]; cbn in Hw; injection Hw as <-; reflexivity. }
  unfold validate in Ev. destruct (validate_step O n v2 (TElementEnd e) (v_store v2)) as [[r st]| |] eqn:Es; cbn [rbind] in Ev; try discriminate Ev.
  assert (Hce : exists q s p0, nth_error (pats (v_store v2)) (v_cur v2) = Some p0 /\ close_element_start O n (v_stack v2) (TElementEnd e) p0 (v_store v2) = Ok (inl q, s)).
  { unfold validate_step in Es. step Es. apply patt_Ok in E as [Hp ->].
    destruct He as [-> | ->]; step Es; destruct x1 as [q|er]; try (eexists q, _, x0; split; eassumption);
      injection Es as <- <-; destruct (stack_effect v2 _); discriminate Ev. }
  destruct Hce as (q & s & p0 & Hp & Hc). rewrite E1 in Hp, Hc. rewrite E2 in Hp.
  destruct (close_first _ _ _ _ _ _ _ _ HS Hc) as (nm & Hn & s1 & Hg & HF).
  destruct (head_covers m _ s1 nm Hg _ _ _ _ Hh (grows_nth _ _ _ _ Hg Hp) HF HN) as (nc & p & H1 & H2).
  exists nm, nc, p. rewrite Hst. auto.
Qed.

(** what is listed is part of what is expected *)
Theorem listed_part st id m h x : heads m st id = Ok h -> In x h -> exists g, Part st id g /\ nth_error (pats st) g = Some x.
Proof. intros H Hx. destruct (head_parts _ _ _ _ _ _ H Hx) as [[]|K]. exact K. Qed.

(** ** the text *)
Fixpoint joined (l : list str) : str := match l with [] => [] | [x] => x | x :: l => x ++ lit " " ++ joined l end.
Lemma loop_more i l result rest : 4 <= i -> describe_loop i result rest l = (result, rest + List.length l).
Proof.
  revert i result rest. induction l as [|nc l IH]; intros i result rest Hi; cbn [describe_loop List.length]; [rewrite Nat.add_0_r; reflexivity|].
  destruct (i =? 0) eqn:E; [apply Nat.eqb_eq in E; lia|]. rewrite (proj2 (Nat.leb_le 4 i)) by lia. rewrite IH by lia. f_equal. lia.
Qed.
(** how a name class is written in the help: a name without its namespace, [uri:*], [*], an exception after "-",
    alternatives separated by "|" *)
Fixpoint class_text (nc : nameclass) : str :=
  match nc with
  | NNamed _ name => name
  | NNsName u None => u ++ lit ":*"
  | NNsName u (Some e) => u ++ lit ":*-" ++ class_text e
  | NAnyName None => lit "*"
  | NAnyName (Some e) => lit "*-" ++ class_text e
  | NAlt a b => class_text a ++ lit "|" ++ class_text b
  end.
Lemma class_described : forall nc d, describe_nameclass nc d = d ++ class_text nc.
Proof.
  fix IH 1. destruct nc as [u n|u [e|]|[e|]|a b]; intros d; cbn [describe_nameclass class_text]; cbv zeta;
    rewrite ?IH, <- ?app_assoc; reflexivity.
Qed.
Definition mentioned (l : list nameclass) : list str := map class_text l.
Lemma mentioned_described l : map (fun nc => describe_nameclass nc []) l = mentioned l.
Proof. apply map_ext. intros nc. apply class_described. Qed.
Lemma described order : let l := flat_map element_class order in l <> [] ->
  describe order = lit "Element " ++ joined (firstn 4 (mentioned l)) ++
    (if 4 <? List.length l then lit " .. or one of " ++ decimal (List.length l - 4) (List.length l - 4) ++ lit " more" else []).
Proof.
  cbn zeta. rewrite <- mentioned_described. unfold describe. destruct (flat_map element_class order) as [|a [|b [|c [|d l]]]]; intros H; [contradiction|..];
    try (cbn; rewrite ?app_nil_r, <- ?app_assoc; reflexivity).
  cbn [describe_loop Nat.eqb Nat.leb Nat.ltb app]. cbn [Nat.leb]. rewrite loop_more by lia. cbn [map firstn joined List.length].
  destruct l as [|e l]; cbn [List.length Nat.add]; [cbn; rewrite ?app_nil_r, <- ?app_assoc; reflexivity|].
  replace (4 <? S (S (S (S (S (List.length l)))))) with true by reflexivity.
  replace (0 <? S (List.length l)) with true by reflexivity. replace (S (S (S (S (S (List.length l))))) - 4) with (S (List.length l)) by lia.
  rewrite <- !app_assoc. reflexivity.
Qed.

(** decimal notation, without leading zeros *)
Inductive Numeral : nat -> str -> Prop :=
| Nu_digit d : d < 10 -> Numeral d [N.of_nat (48 + d)]
| Nu_more n s d : Numeral n s -> 0 < n -> d < 10 -> Numeral (10 * n + d) (s ++ [N.of_nat (48 + d)]).
Lemma decimal_numeral : forall fuel n, n <= fuel -> Numeral n (decimal fuel n).
Proof.
  assert (D : forall d, [(48 + N.of_nat d)%N] = [N.of_nat (48 + d)]) by (intros d; f_equal; lia).
  induction fuel as [|fuel IH]; intros n L; cbn [decimal]; rewrite D.
  - replace n with 0 by lia. apply (Nu_digit 0). lia.
  - assert (M := Nat.div_mod n 10 ltac:(lia)). assert (U := Nat.mod_upper_bound n 10 ltac:(lia)). destruct (n <? 10) eqn:E.
    + apply Nat.ltb_lt in E. rewrite Nat.mod_small by exact E. now apply Nu_digit.
    + apply Nat.ltb_ge in E. rewrite M at 1. apply Nu_more; [apply IH | | exact U].
      * assert (n / 10 < n) by (apply Nat.div_lt; lia). lia.
      * apply Nat.div_str_pos. lia.
Qed.
(** the whole help *)
Lemma help_described order : let l := flat_map element_class order in
  (l = [] -> help_text (describe order) = lit "Remove this") /\
  (l <> [] -> List.length l <= 4 -> help_text (describe order) = lit "Expected Element " ++ joined (mentioned l)) /\
  (4 < List.length l -> exists s, Numeral (List.length l - 4) s /\
     help_text (describe order) = lit "Expected Element " ++ joined (firstn 4 (mentioned l)) ++ lit " .. or one of " ++ s ++ lit " more").
Proof.
  assert (H := described order). cbn zeta in *. set (l := flat_map element_class order) in *. split; [|split].
  - intros E. unfold describe. fold l. rewrite E. reflexivity.
  - intros E L. rewrite (H E). destruct (4 <? List.length l) eqn:Q; [apply Nat.ltb_lt in Q; lia|]. rewrite app_nil_r, firstn_all2; [reflexivity|].
    unfold mentioned. rewrite map_length. exact L.
  - intros L. assert (E : l <> []) by (intros E; rewrite E in L; cbn in L; lia). rewrite (H E). destruct (4 <? List.length l) eqn:Q; [|apply Nat.ltb_ge in Q; lia].
    eexists. split; [apply decimal_numeral; reflexivity | reflexivity].
Qed.

(** a check for [NoSkip] *)
Fixpoint no_skip (fuel : nat) (st : store) (id : pid) : bool :=
  match fuel with
  | 0 => false
  | S fuel =>
    match nth_error (pats st) id with
    | Some (PChoice l r _) | Some (PInterleave l r _) => no_skip fuel st l && no_skip fuel st r
    | Some (PGroup l r _) => negb (nul st l) && (no_skip fuel st l && no_skip fuel st r)
    | Some (POneOrMore p _) | Some (PList p) | Some (PAfter p _) => no_skip fuel st p
    | _ => true
    end
  end.
Lemma no_skip_part st id g : Part st id g -> forall n, no_skip n st id = true -> exists n', no_skip n' st g = true.
Proof.
  induction 1 as [id|id l r n g E P IH|id l r n g E P IH|id l r n g E P IH|id l r n g E P IH|id l r n g E P IH|id l r n g E P IH|id p n g E P IH|id p g E P IH|id p q g E P IH];
    intros [|k] H; try discriminate H; [exists (S k); exact H|..]; cbn [no_skip] in H; rewrite E in H; rewrite ?andb_true_iff in H; eapply IH; apply H.
Qed.
Lemma no_skip_ok n st id : no_skip n st id = true -> NoSkip st id.
Proof.
  intros H g l r b P E. destruct (no_skip_part _ _ _ P _ H) as [[|k] K]; [discriminate K|]. cbn [no_skip] in K. rewrite E in K. apply andb_true_iff in K as [K _]. apply negb_true_iff in K. exact K.
Qed.

(** ** the lines of a file *)
(** [line] (with the newline that ends it) follows [pre], which ends with a newline or is empty, and [n] newlines *)
Definition newlines (s : str) : nat := List.length (filter (fun c => (c =? 10)%N) s).
Definition is_line (text : str) (n : nat) (pre line : str) : Prop :=
  exists post, text = pre ++ line ++ post /\ newlines pre = n /\ (pre = [] \/ exists p, pre = p ++ [10%N]) /\
    ((~ In 10%N line /\ post = []) \/ exists l, line = l ++ [10%N] /\ ~ In 10%N l).
Lemma starts_app a b : forall pos, line_starts pos (a ++ b) = line_starts pos a ++ line_starts (pos + utf8_len a) b.
Proof.
  induction a as [|c a IH]; intros pos; cbn [app line_starts utf8_len]; [rewrite Nat.add_0_r; reflexivity|].
  destruct (c =? 10)%N eqn:E; cbn [app]; rewrite IH.
  - apply N.eqb_eq in E. subst c. cbn [utf8_width]. f_equal. f_equal. f_equal. change (utf8_width 10%N) with 1. lia.
  - f_equal. f_equal. lia.
Qed.
Lemma starts_none l : ~ In 10%N l -> forall pos, line_starts pos l = [].
Proof.
  induction l as [|c l IH]; intros H pos; cbn [line_starts]; [reflexivity|]. destruct (c =? 10)%N eqn:E; [apply N.eqb_eq in E; subst c; destruct H; left; reflexivity|].
  apply IH. intros K. apply H. right. exact K.
Qed.
Lemma starts_length text : forall pos, List.length (line_starts pos text) = newlines text.
Proof. unfold newlines. induction text as [|c text IH]; intros pos; cbn [line_starts filter]; [reflexivity|]. destruct (c =? 10)%N; cbn [List.length]; rewrite IH; reflexivity. Qed.
Lemma utf8_app a b : utf8_len (a ++ b) = utf8_len a + utf8_len b.
Proof. induction a as [|c a IH]; cbn [app utf8_len]; [reflexivity|]. rewrite IH. lia. Qed.
Lemma line_span_ok text n pre line : is_line text n pre line -> line_span text n = Ok (utf8_len pre, utf8_len pre + utf8_len line).
Proof.
  intros (post & -> & <- & Hp & Hl). unfold line_span.
  assert (S0 : nth_error (0 :: line_starts 0 (pre ++ line ++ post)) (newlines pre) = Some (utf8_len pre)).
  { destruct Hp as [-> | (p & ->)]; [reflexivity|]. unfold newlines. rewrite filter_app, app_length. cbn [filter N.eqb Pos.eqb List.length].
    rewrite Nat.add_comm. cbn [Nat.add nth_error]. rewrite <- app_assoc, starts_app. fold (newlines p). rewrite <- (starts_length p 0).
    rewrite nth_error_app2 by lia. rewrite Nat.sub_diag. cbn [app line_starts N.eqb Pos.eqb nth_error]. rewrite utf8_app. cbn. f_equal. lia. }
  rewrite S0. f_equal. f_equal.
  destruct Hl as [[Hl ->] | (l & -> & Hl)].
  - rewrite app_nil_r, nth_overflow; [rewrite utf8_app; lia|]. cbn [List.length]. rewrite starts_app, (starts_none _ Hl), app_nil_r, starts_length. lia.
  - cbn [nth]. rewrite <- app_assoc, !starts_app, (starts_none _ Hl). rewrite <- (starts_length pre 0).
    rewrite app_nth2 by lia. rewrite Nat.sub_diag. cbn. rewrite utf8_app. cbn. lia.
Qed.
(** every file has the lines 0 to the number of its newlines *)
Lemma cut_line : forall s, exists l post, s = l ++ post /\ ((~ In 10%N l /\ post = []) \/ exists k, l = k ++ [10%N] /\ ~ In 10%N k).
Proof.
  induction s as [|c s (l & post & -> & H)]; [exists [], []; split; [reflexivity|]; left; split; [intros [] | reflexivity]|].
  destruct (N.eq_dec c 10) as [->|N]; [exists [10%N], (l ++ post); split; [reflexivity|]; right; exists []; split; [reflexivity | intros []]|].
  exists (c :: l), post. split; [reflexivity|]. destruct H as [[H ->] | (k & -> & H)]; [left|right].
  - split; [|reflexivity]. intros [E|E]; [exact (N E) | exact (H E)].
  - exists (c :: k). split; [reflexivity|]. intros [E|E]; [exact (N E) | exact (H E)].
Qed.
Lemma has_line : forall n text, n <= newlines text -> exists pre line, is_line text n pre line.
Proof.
  induction n as [|n IH]; intros text H.
  - destruct (cut_line text) as (l & post & -> & K). exists [], l, post. split; [reflexivity|]. split; [reflexivity|]. split; [left; reflexivity | exact K].
  - assert (K : exists a b, text = (a ++ [10%N]) ++ b /\ ~ In 10%N a /\ newlines b = pred (newlines text)).
    { clear IH. induction text as [|c text IH]; [cbn in H; lia|]. destruct (N.eq_dec c 10) as [->|Nc]; [exists [], text; split; [reflexivity|]; split; [intros [] | reflexivity]|].
      unfold newlines in *. cbn [filter] in *. rewrite (proj2 (N.eqb_neq _ _) Nc) in *. destruct (IH H) as (a & b & -> & Ha & Hb). exists (c :: a), b. split; [reflexivity|]. split; [|exact Hb].
      intros [E|E]; [exact (Nc E) | exact (Ha E)]. }
    destruct K as (a & b & -> & Ha & Hb). destruct (IH b ltac:(lia)) as (pre & line & post & -> & <- & Hp & Hl).
    exists ((a ++ [10%N]) ++ pre), line, post. split; [rewrite <- !app_assoc; reflexivity|]. split; [|split; [|exact Hl]].
    + unfold newlines. rewrite !filter_app, !app_length. cbn [filter N.eqb Pos.eqb List.length].
      assert (E : filter (fun c => (c =? 10)%N) a = []). { clear -Ha. induction a as [|c a IH]; [reflexivity|]. cbn [filter]. destruct (c =? 10)%N eqn:E; [apply N.eqb_eq in E; subst c; destruct Ha; left; reflexivity|]. apply IH. intros K; apply Ha; right; exact K. }
      rewrite E. reflexivity.
    + right. destruct Hp as [-> | (p & ->)]; [exists a; apply app_nil_r | exists ((a ++ [10%N]) ++ p); rewrite <- !app_assoc; reflexivity].
Qed.
(** the label of an XML error in row [row] (counted from 1): [row] bytes into line [row] counted from 0, if there is such a place *)
Theorem xml_label n order v text row : forall s h, diagnostic n order v text (DXml row) = Ok (s, h) <->
  exists pre line, is_line text row pre line /\ row <= utf8_len line /\ s = (utf8_len pre + row, utf8_len pre + row) /\ h = None.
Proof.
  intros s h. cbn [diagnostic]. split.
  - intros H. destruct (Nat.le_gt_cases row (newlines text)) as [L|L].
    + destruct (has_line row text L) as (pre & line & K). exists pre, line. rewrite (line_span_ok _ _ _ _ K) in H. cbn [rbind subspan fst snd] in H. unfold subspan in H. cbn [fst snd] in H.
      rewrite Nat.leb_refl in H. cbn [andb] in H. destruct (_ <=? _) eqn:E in H; [|discriminate H]. apply Nat.leb_le in E. injection H as <- <-. split; [exact K|]. split; [lia|]. split; reflexivity.
    + unfold line_span in H. rewrite (proj2 (nth_error_None _ _)) in H; [discriminate H|]. cbn [List.length]. rewrite starts_length. lia.
  - intros (pre & line & K & L & -> & ->). rewrite (line_span_ok _ _ _ _ K). cbn [rbind]. unfold subspan. cbn [fst snd]. rewrite Nat.leb_refl. cbn [andb].
    rewrite (proj2 (Nat.leb_le _ _)) by lia. reflexivity.
Qed.
