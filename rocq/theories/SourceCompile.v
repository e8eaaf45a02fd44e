(** * SourceCompile: what the schema compiler produces is a translation of the source
    (proof machinery for C28, C29, C30, C32). *)
From Coq Require Import Permutation String.
From Verif Require Import Base Datatype Facets Store Lang Compile Syntax SchemaCompile Spec SourceSpec SourceScope SourceTr SourceSem.

(** ** Monad *)
Lemma cbind_ok {A B} (m : CM A) (f : A -> CM B) st b st' : cbind m f st = fok (b, st') -> exists a st1, m st = fok (a, st1) /\ f a st1 = fok (b, st').
Proof.
  unfold cbind, fbind, fok. destruct (m st) as [[[a st1]|e]|p|]; cbn; intros H; try discriminate H. exists a, st1; auto.
Qed.
Lemma cmap_err_ok {A} g (m : CM A) st x : cmap_err g m st = fok x -> m st = fok x.
Proof. unfold cmap_err, fmap_err. destruct (m st) as [[y|e]|p|]; cbn; intros H; try discriminate H; exact H. Qed.
Lemma cret_ok {A} (a b : A) st st' : cret a st = fok (b, st') -> a = b /\ st = st'.
Proof. intros H. injection H as -> ->. auto. Qed.
Ltac cinv H := let a := fresh "x" in let s := fresh "st" in let E := fresh "E" in apply cbind_ok in H; destruct H as (a & s & E & H).
Ltac cret H := apply cret_ok in H; let E1 := fresh in let E2 := fresh in destruct H as [E1 E2]; subst.

Lemma fok_inj {E A B} (a a' : A) (b b' : B) : @fok E _ (a, b) = fok (a', b') -> a = a' /\ b = b'.
Proof. intros H. injection H as -> ->. auto. Qed.
Ltac cfok E := apply fok_inj in E; destruct E as [<- <-].
Ltac cbad H := exfalso; unfold cerr, cpanic, cfuel, ferr, fok in H; discriminate H.

(** ** Lists *)
Lemma length_upd {A} n (x : A) l : List.length (upd n x l) = List.length l.
Proof. revert n; induction l as [|y l IH]; intros [|n]; cbn; auto. Qed.
Lemma nth_upd_same {A} n (x d : A) l : n < List.length l -> nth n (upd n x l) d = x.
Proof. revert n; induction l as [|y l IH]; intros [|n] H; cbn in *; try lia; [reflexivity|]. apply IH; lia. Qed.
Lemma nth_upd_other {A} n n' (x d : A) l : n <> n' -> nth n' (upd n x l) d = nth n' l d.
Proof. revert n n'; induction l as [|y l IH]; intros [|n] [|n'] H; cbn; try reflexivity; try lia. apply IH; lia. Qed.
Lemma nth_app_old {A} n (l l' : list A) d : n < List.length l -> nth n (l ++ l') d = nth n l d.
Proof. intros H. apply app_nth1; exact H. Qed.
Lemma assoc_app {A} k (l l' : list (str * A)) : assoc k (l ++ l') = match assoc k l with Some v => Some v | None => assoc k l' end.
Proof. induction l as [|[k' v] l IH]; [reflexivity|]. cbn. destruct (str_eqb k' k); [reflexivity | exact IH]. Qed.
Lemma assoc_one {A} k k' (v : A) : assoc k [(k', v)] = if str_eqb k' k then Some v else None.
Proof. reflexivity. Qed.

(** ** States *)
Definition wf (st : cst) : Prop :=
  (forall t n r, look st t n = Some r -> r < List.length (cells st)) /\
  (forall t n t' n' r, look st t n = Some r -> look st t' n' = Some r -> t = t' /\ n = n').
Definition ext (own : list nat) (st st' : cst) : Prop :=
  List.length (tables st) <= List.length (tables st') /\
  (forall t n r, look st t n = Some r -> look st' t n = Some r) /\
  (forall t n, t < List.length (tables st) -> ~ In t own -> content st' t n = content st t n).
Lemma ext_refl own st : ext own st st.
Proof. split; [lia|]. split; auto. Qed.
Lemma ext_trans own st1 st2 st3 : ext own st1 st2 -> ext own st2 st3 -> ext own st1 st3.
Proof.
  intros (A1 & A2 & A3) (B1 & B2 & B3). split; [lia|]. split; [auto|]. intros t n H1 H2. rewrite B3; [apply A3; assumption | lia | assumption].
Qed.
Lemma ext_mono own own' st st' : incl own own' -> ext own st st' -> ext own' st st'.
Proof. intros Hi (A1 & A2 & A3). split; [exact A1|]. split; [exact A2|]. intros t n H1 H2. apply A3; auto. Qed.
(** tables that did not exist may be changed freely *)
Lemma ext_new own own' st st' : (forall t, In t own -> t < List.length (tables st) -> In t own') -> ext own st st' -> ext own' st st'.
Proof. intros Hi (A1 & A2 & A3). split; [exact A1|]. split; [exact A2|]. intros t n H1 H2. apply A3; auto. Qed.

(** the part of the state the maps of references are *)
Definition same_refs (st st' : cst) : Prop := cells st' = cells st /\ tables st' = tables st.
Lemma same_refs_look st st' : same_refs st st' -> forall t n, look st' t n = look st t n.
Proof. intros [_ H] t n. unfold look. rewrite H. reflexivity. Qed.
Lemma same_refs_content st st' : same_refs st st' -> forall t n, content st' t n = content st t n.
Proof. intros H t n. unfold content. rewrite (same_refs_look st st' H). destruct H as [-> _]. reflexivity. Qed.
Lemma same_refs_wf st st' : same_refs st st' -> wf st -> wf st'.
Proof.
  intros H [W1 W2]. split.
  - intros t n r Hl. rewrite (same_refs_look _ _ H) in Hl. apply W1 in Hl. destruct H as [-> _]. exact Hl.
  - intros t n t' n' r H1 H2. rewrite (same_refs_look _ _ H) in H1, H2. eapply W2; eassumption.
Qed.
Lemma same_refs_ext own st st' : same_refs st st' -> ext own st st'.
Proof.
  intros H. split; [destruct H as [_ ->]; lia|]. split; [intros; rewrite (same_refs_look _ _ H); assumption|].
  intros; apply same_refs_content; exact H.
Qed.

Lemma look_bound st t n r : look st t n = Some r -> t < List.length (tables st).
Proof.
  unfold look. intros H. destruct (Nat.lt_ge_cases t (List.length (tables st))) as [H'|H']; [exact H'|].
  rewrite (nth_overflow (tables st) [] H') in H. discriminate H.
Qed.
Lemma look_append st tbl id r t n cs ov ld : tbl < List.length (tables st) ->
  look (Cst cs (upd tbl (nth tbl (tables st) [] ++ [(id, r)]) (tables st)) ov ld) t n =
  match look st t n with Some r => Some r | None => if Nat.eqb t tbl && str_eqb id n then Some r else None end.
Proof.
  intros Hb. unfold look. cbn [tables]. destruct (Nat.eqb_spec t tbl) as [->|Hne].
  - rewrite nth_upd_same by exact Hb. rewrite assoc_app, assoc_one. reflexivity.
  - rewrite nth_upd_other by lia. cbn. destruct (assoc n (nth t (tables st) [])); reflexivity.
Qed.
Lemma acquire_in_ok tbl id st r st' : wf st -> tbl < List.length (tables st) -> acquire_in tbl id st = fok (r, st') ->
  wf st' /\ ext [] st st' /\ ovrs st' = ovrs st /\ look st' tbl id = Some r.
Proof.
  intros [W1 W2] Hb H. unfold acquire_in in H. fold (look st tbl id) in H. destruct (look st tbl id) as [r0|] eqn:E.
  - injection H as <- <-. split; [split; assumption|]. split; [apply ext_refl|]. auto.
  - injection H as <- <-. set (st' := Cst _ _ _ _).
    assert (HL : forall t n, look st' t n = match look st t n with Some r => Some r | None => if Nat.eqb t tbl && str_eqb id n then Some (List.length (cells st)) else None end)
      by (intros; apply look_append; exact Hb).
    assert (HC : forall t n, content st' t n = content st t n).
    { intros t n. unfold content. rewrite HL. destruct (look st t n) as [r|] eqn:El.
      - cbn [cells st']. rewrite app_nth1; [reflexivity | eapply W1; exact El].
      - destruct (_ && _); [|reflexivity]. cbn [cells st']. rewrite app_nth2 by lia. rewrite Nat.sub_diag. reflexivity. }
    split; [split|split; [|split]].
    + intros t n r Hr. rewrite HL in Hr. cbn [cells st']. rewrite app_length. cbn. destruct (look st t n) as [r1|] eqn:El; [injection Hr as <-; apply W1 in El; lia|].
      destruct (_ && _); [|discriminate]. injection Hr as <-. lia.
    + intros t n t' n' r Hr Hr'. rewrite HL in Hr, Hr'.
      destruct (look st t n) as [r1|] eqn:El, (look st t' n') as [r2|] eqn:El'.
      * injection Hr as ->. injection Hr' as ->. eapply W2; eassumption.
      * injection Hr as ->. apply W1 in El. destruct (_ && _); [|discriminate]. injection Hr' as <-. lia.
      * injection Hr' as ->. apply W1 in El'. destruct (_ && _); [|discriminate]. injection Hr as <-. lia.
      * destruct (Nat.eqb_spec t tbl), (str_eqb id n) eqn:E1; cbn in Hr; try discriminate Hr. destruct (Nat.eqb_spec t' tbl), (str_eqb id n') eqn:E2; cbn in Hr'; try discriminate Hr'.
        apply str_eqb_eq in E1, E2. subst. auto.
    + split; [cbn; rewrite length_upd; lia|]. split; [intros t n r Hr; rewrite HL, Hr; reflexivity | intros; apply HC].
    + reflexivity.
    + rewrite HL, E, Nat.eqb_refl, str_eqb_refl. reflexivity.
Qed.
Lemma define_in_ok tbl id rule st st' : wf st -> tbl < List.length (tables st) -> define_in tbl id rule st = fok (tt, st') ->
  wf st' /\ ext [tbl] st st' /\ ovrs st' = ovrs st /\
  (forall n, merge_all n (content st tbl n) (if str_eqb id n then [rule] else []) = fok (content st' tbl n)).
Proof.
  intros [W1 W2] Hb H. unfold define_in in H. fold (look st tbl id) in H. destruct (look st tbl id) as [r0|] eqn:E.
  - assert (Ec : snd (nth r0 (cells st) (id, None)) = content st tbl id).
    { unfold content. rewrite E. rewrite (nth_indep (cells st) (id, None) ([], None)); [reflexivity | eapply W1; exact E]. }
    rewrite Ec in H. destruct (SchemaCompile.merge id (content st tbl id) rule) as [[rule'|e]|p|] eqn:Em; try discriminate H. cbn in H. injection H as <-. set (st' := Cst _ _ _ _).
    assert (HL : forall t n, look st' t n = look st t n) by reflexivity.
    assert (HC : forall t n, content st' t n = if Nat.eqb t tbl && str_eqb id n then Some rule' else content st t n).
    { intros t n. unfold content. rewrite HL. destruct (look st t n) as [r|] eqn:El.
      - cbn [cells st']. destruct (Nat.eqb_spec t tbl) as [->|Hne].
        + destruct (str_eqb id n) eqn:Es.
          * apply str_eqb_eq in Es. subst n. rewrite E in El. injection El as ->. rewrite nth_upd_same; [reflexivity | eapply W1; exact E].
          * apply str_eqb_neq in Es. rewrite nth_upd_other; [reflexivity|]. intros ->. destruct (W2 _ _ _ _ _ E El) as [_ K]. contradiction.
        + rewrite nth_upd_other; [reflexivity|]. intros ->. destruct (W2 _ _ _ _ _ E El) as [K _]. symmetry in K. contradiction.
      - destruct (Nat.eqb_spec t tbl) as [->|Hne]; [|reflexivity]. destruct (str_eqb id n) eqn:Es; [|reflexivity]. apply str_eqb_eq in Es. subst n. congruence. }
    split; [split|split; [|split]].
    + intros t n r Hr. rewrite HL in Hr. cbn [cells st']. rewrite length_upd. eapply W1; exact Hr.
    + intros t n t' n' r Hr Hr'. eapply W2; eassumption.
    + split; [cbn; lia|]. split; [auto|]. intros t n _ Hn. rewrite HC. destruct (Nat.eqb_spec t tbl) as [->|Hne]; [exfalso; apply Hn; left; reflexivity | reflexivity].
    + reflexivity.
    + intros n. rewrite HC, Nat.eqb_refl. cbn [andb]. destruct (str_eqb id n) eqn:Es; [|reflexivity]. apply str_eqb_eq in Es. subst n. cbn [merge_all]. rewrite Em. reflexivity.
  - injection H as <-. set (st' := Cst _ _ _ _).
    assert (HL : forall t n, look st' t n = match look st t n with Some r => Some r | None => if Nat.eqb t tbl && str_eqb id n then Some (List.length (cells st)) else None end)
      by (intros; apply look_append; exact Hb).
    assert (HC : forall t n, content st' t n = if Nat.eqb t tbl && str_eqb id n then Some rule else content st t n).
    { intros t n. unfold content. rewrite HL. destruct (look st t n) as [r|] eqn:El.
      - cbn [cells st']. rewrite app_nth1 by (eapply W1; exact El). destruct (Nat.eqb_spec t tbl) as [->|Hne]; [|reflexivity].
        destruct (str_eqb id n) eqn:Es; [|reflexivity]. apply str_eqb_eq in Es. subst n. congruence.
      - destruct (_ && _); [|reflexivity]. cbn [cells st']. rewrite app_nth2 by lia. rewrite Nat.sub_diag. reflexivity. }
    split; [split|split; [|split]].
    + intros t n r Hr. rewrite HL in Hr. cbn [cells st']. rewrite app_length. cbn. destruct (look st t n) as [r1|] eqn:El; [injection Hr as <-; apply W1 in El; lia|].
      destruct (_ && _); [|discriminate]. injection Hr as <-. lia.
    + intros t n t' n' r Hr Hr'. rewrite HL in Hr, Hr'.
      destruct (look st t n) as [r1|] eqn:El, (look st t' n') as [r2|] eqn:El'.
      * injection Hr as ->. injection Hr' as ->. eapply W2; eassumption.
      * injection Hr as ->. apply W1 in El. destruct (_ && _); [|discriminate]. injection Hr' as <-. lia.
      * injection Hr' as ->. apply W1 in El'. destruct (_ && _); [|discriminate]. injection Hr as <-. lia.
      * destruct (Nat.eqb_spec t tbl), (str_eqb id n) eqn:E1; cbn in Hr; try discriminate Hr. destruct (Nat.eqb_spec t' tbl), (str_eqb id n') eqn:E2; cbn in Hr'; try discriminate Hr'.
        apply str_eqb_eq in E1, E2. subst. auto.
    + split; [cbn; rewrite length_upd; lia|]. split; [intros t n r Hr; rewrite HL, Hr; reflexivity|].
      intros t n _ Hn. rewrite HC. destruct (Nat.eqb_spec t tbl) as [->|Hne]; [exfalso; apply Hn; left; reflexivity | reflexivity].
    + reflexivity.
    + intros n. rewrite HC, Nat.eqb_refl. cbn [andb]. destruct (str_eqb id n) eqn:Es; [|reflexivity]. apply str_eqb_eq in Es. subst n.
      cbn [merge_all]. unfold content at 1. rewrite E. reflexivity.
Qed.
Lemma take_start_ok tbl st X st' : wf st -> take_start tbl st = fok (X, st') ->
  wf st' /\ ext [tbl] st st' /\ ovrs st' = ovrs st /\ exists R, content st tbl (lit "start") = Some R /\ X = rule_pattern R /\
  forall n, content st' tbl n = if str_eqb (lit "start") n then None else content st tbl n.
Proof.
  intros [W1 W2] H. unfold take_start in H. cinv H. unfold get_ref_in in E. cfok E. fold (look st tbl (lit "start")) in H.
  destruct (look st tbl (lit "start")) as [r|] eqn:El; [|cbad H]. cinv H. unfold take_cell in E.
  destruct (nth r (cells st) ([], None)) as [nm d] eqn:En. cfok E. destruct d as [R|]; [|cbad H]. cret H.
  set (st' := Cst _ _ _ _).
  assert (HL : forall t n, look st' t n = look st t n) by reflexivity.
  assert (HC : forall t n, content st' t n = if Nat.eqb t tbl && str_eqb (lit "start") n then None else content st t n).
  { intros t n. unfold content. rewrite HL. destruct (look st t n) as [r'|] eqn:El'.
    - cbn [cells st']. destruct (Nat.eqb_spec t tbl) as [->|Hne].
      + destruct (str_eqb (lit "start") n) eqn:Es.
        * apply str_eqb_eq in Es. subst n. rewrite El in El'. injection El' as <-. rewrite nth_upd_same; [reflexivity | eapply W1; exact El].
        * apply str_eqb_neq in Es. rewrite nth_upd_other; [reflexivity|]. intros ->. destruct (W2 _ _ _ _ _ El El') as [_ K]. contradiction.
      + rewrite nth_upd_other; [reflexivity|]. intros ->. destruct (W2 _ _ _ _ _ El El') as [K _]. symmetry in K. contradiction.
    - destruct (_ && _); reflexivity. }
  split; [split|split; [|split]].
  - intros t n r' Hr. rewrite HL in Hr. cbn [cells st']. rewrite length_upd. eapply W1; exact Hr.
  - intros t n t' n' r' Hr Hr'. eapply W2; eassumption.
  - split; [cbn; lia|]. split; [auto|]. intros t n _ Hn. rewrite HC. destruct (Nat.eqb_spec t tbl) as [->|Hne]; [exfalso; apply Hn; left; reflexivity | reflexivity].
  - reflexivity.
  - exists R. split; [unfold content; rewrite El, En; reflexivity|]. split; [reflexivity|]. intros n. rewrite HC, Nat.eqb_refl. reflexivity.
Qed.
Lemma new_table_ok st t st' : wf st -> new_table st = fok (t, st') -> wf st' /\ ext [] st st' /\ ovrs st' = ovrs st /\ t = List.length (tables st) /\ t < List.length (tables st') /\ (forall n, content st' t n = None).
Proof.
  intros [W1 W2] H. injection H as <- <-. set (st' := Cst _ _ _ _).
  assert (HL : forall t n, look st' t n = look st t n).
  { intros t n. unfold look. cbn [tables st']. destruct (Nat.lt_ge_cases t (List.length (tables st))) as [K|K]; [rewrite app_nth1 by exact K; reflexivity|].
    rewrite app_nth2 by exact K. rewrite (nth_overflow (tables st) [] K). destruct (t - _) as [|[|k]]; reflexivity. }
  assert (HC : forall t n, content st' t n = content st t n) by (intros t n; unfold content; rewrite HL; reflexivity).
  split; [split|split; [split; [|split]|split; [|split; [|split]]]].
  - intros t n r Hr. rewrite HL in Hr. eapply W1; exact Hr.
  - intros t n t' n' r Hr Hr'. rewrite HL in Hr, Hr'. eapply W2; eassumption.
  - cbn. rewrite app_length. lia.
  - intros t n r Hr. rewrite HL. exact Hr.
  - intros; apply HC.
  - reflexivity.
  - reflexivity.
  - cbn. rewrite app_length. cbn. lia.
  - intros n. rewrite HC. unfold content, look. rewrite nth_overflow by lia. reflexivity.
Qed.

(** ** Contexts *)
Fixpoint tabs (c : ctx) : list nat :=
  match c with
  | XRoot _ t _ _ => [t]
  | XGrammar p t => t :: tabs p
  | XInclude p _ _ _ _ | XOverrides p | XDefine p _ | XElement p | XAttribute p => tabs p
  end.
Fixpoint gctx (c : ctx) : Prop := match c with XRoot _ _ _ _ | XGrammar _ _ => True | XInclude p _ _ _ _ => gctx p | _ => False end.
Fixpoint chain (c : ctx) : list nat := match c with XInclude p _ o _ _ => o :: chain p | _ => [] end.
Definition owner (c : ctx) : nat := hd 0 (tabs c).
Lemma tabs_owner c : tabs c = owner c :: tl (tabs c).
Proof. unfold owner. induction c; cbn in *; auto. Qed.
Definition tabs_in (st : cst) (c : ctx) : Prop := forall t, In t (tabs c) -> t < List.length (tables st).
Definition chain_in (st : cst) (c : ctx) : Prop := forall o, In o (chain c) -> o < List.length (ovrs st).
Definition has (o : nat) (st : cst) (n : str) : bool := match assoc n (nth o (ovrs st) []) with Some _ => true | None => false end.
Definition blocked (st : cst) (c : ctx) (n : str) : bool := existsb (fun o => has o st n) (chain c).
Lemma owner_in st c : tabs_in st c -> owner c < List.length (tables st).
Proof. intros H. apply H. rewrite tabs_owner. left; reflexivity. Qed.
Lemma tabs_in_ext own st st' c : ext own st st' -> tabs_in st c -> tabs_in st' c.
Proof. intros (H & _) HT t Ht. apply HT in Ht. lia. Qed.

(** overrides: [ovr_step ch ns st st']: only those in [ch] changed, by marking names in [ns] *)
Definition ovr_step (ch : list nat) (ns : list str) (st st' : cst) : Prop :=
  List.length (ovrs st) <= List.length (ovrs st') /\
  (forall o, o < List.length (ovrs st) -> ~ In o ch -> nth o (ovrs st') [] = nth o (ovrs st) []) /\
  (forall o, o < List.length (ovrs st) -> map fst (nth o (ovrs st') []) = map fst (nth o (ovrs st) []) /\
    forall n, assoc n (nth o (ovrs st') []) = Some true -> assoc n (nth o (ovrs st) []) = Some true \/ In n ns).
Lemma ovr_step_same ch ns st st' : ovrs st' = ovrs st -> ovr_step ch ns st st'.
Proof. intros E. unfold ovr_step. rewrite E. split; [lia|]. split; [auto|]. intros o _. split; auto. Qed.
Lemma ovr_step_trans ch ns1 ns2 st1 st2 st3 : ovr_step ch ns1 st1 st2 -> ovr_step ch ns2 st2 st3 -> ovr_step ch (ns1 ++ ns2) st1 st3.
Proof.
  intros (A1 & A2 & A3) (B1 & B2 & B3). split; [lia|]. split.
  - intros o Ho Hn. rewrite B2 by (assumption || lia). apply A2; assumption.
  - intros o Ho. destruct (A3 o Ho) as [K1 K2]. destruct (B3 o ltac:(lia)) as [L1 L2]. split; [congruence|].
    intros n Hn. apply L2 in Hn. destruct Hn as [Hn|Hn]; [apply K2 in Hn; destruct Hn as [Hn|Hn]; [left; exact Hn|]|]; right; apply in_app_iff; auto.
Qed.
Lemma ovr_step_weak ch ch' ns ns' st st' : incl ch ch' -> incl ns ns' -> ovr_step ch ns st st' -> ovr_step ch' ns' st st'.
Proof.
  intros H1 H2 (A1 & A2 & A3). split; [lia|]. split; [intros; apply A2; auto|]. intros o Ho. destruct (A3 o Ho) as [K1 K2]. split; [exact K1|].
  intros n Hn. apply K2 in Hn. destruct Hn; auto.
Qed.
Lemma keys_has (l l' : list (str * bool)) n : map fst l' = map fst l -> (match assoc n l' with Some _ => true | None => false end) = (match assoc n l with Some _ => true | None => false end).
Proof.
  revert l'; induction l as [|[k v] l IH]; intros [|[k' v'] l'] H; try discriminate H; [reflexivity|]. cbn in H. injection H as -> H. cbn.
  destruct (str_eqb k n); [reflexivity | apply IH; exact H].
Qed.
Lemma ovr_step_has ch ns st st' o n : ovr_step ch ns st st' -> o < List.length (ovrs st) -> has o st' n = has o st n.
Proof. intros (_ & _ & A3) Ho. destruct (A3 o Ho) as [K _]. apply keys_has; exact K. Qed.
Lemma ovr_step_blocked ch ns st st' c n : ovr_step ch ns st st' -> chain_in st c -> blocked st' c n = blocked st c n.
Proof.
  intros H Hc. unfold blocked. unfold chain_in in Hc. induction (chain c) as [|o l IH]; [reflexivity|]. cbn. rewrite (ovr_step_has _ _ _ _ o n H) by (apply Hc; left; reflexivity).
  f_equal. apply IH. intros o' Ho'. apply Hc; right; exact Ho'.
Qed.
Lemma chain_in_step ch ns st st' c : ovr_step ch ns st st' -> chain_in st c -> chain_in st' c.
Proof. intros (H & _) HC o Ho. apply HC in Ho. lia. Qed.
Lemma assoc_set n k (l : list (str * bool)) : assoc n (set_assoc k true l) = if str_eqb k n then (match assoc n l with Some _ => Some true | None => None end) else assoc n l.
Proof.
  induction l as [|[k' v] l IH]; [cbn; destruct (str_eqb k n); reflexivity|].
  change (set_assoc k true ((k', v) :: l)) with ((if str_eqb k' k then (k', true) else (k', v)) :: set_assoc k true l).
  destruct (str_eqb k' k) eqn:E; cbn [assoc].
  - apply str_eqb_eq in E. subst k'. destruct (str_eqb k n) eqn:E2; [reflexivity|]. rewrite IH. reflexivity.
  - destruct (str_eqb k' n) eqn:E2; [|exact IH]. apply str_eqb_eq in E2. subst k'. assert (str_eqb k n = false) as -> by (apply str_eqb_neq; apply str_eqb_neq in E; congruence). reflexivity.
Qed.
Lemma keys_set k (l : list (str * bool)) : map fst (set_assoc k true l) = map fst l.
Proof. unfold set_assoc. rewrite map_map. apply map_ext. intros [k' v]. cbn. destruct (str_eqb k' k); reflexivity. Qed.
Lemma mark_ok o id st st' : o < List.length (ovrs st) -> mark_ovr o id st = fok (tt, st') -> same_refs st st' /\ ovr_step [o] [id] st st'.
Proof.
  intros Ho H. unfold mark_ovr in H. injection H as <-. split; [split; reflexivity|]. unfold ovr_step. cbn [ovrs]. rewrite length_upd. split; [lia|]. split.
  - intros o' _ Hn. apply nth_upd_other. intros ->. apply Hn; left; reflexivity.
  - intros o' Ho'. destruct (Nat.eq_dec o o') as [<-|Hne].
    + rewrite nth_upd_same by exact Ho. split; [apply keys_set|]. intros n Hn. rewrite assoc_set in Hn. destruct (str_eqb id n) eqn:E; [|left; exact Hn].
      apply str_eqb_eq in E. subst. right; left; reflexivity.
    + rewrite nth_upd_other by exact Hne. split; [reflexivity | auto].
Qed.
(** ** [define] *)
Lemma define_ok c id rule : gctx c -> forall st st', wf st -> tabs_in st c -> chain_in st c -> define c id rule st = fok (tt, st') ->
  wf st' /\ ext [owner c] st st' /\ ovr_step (chain c) [id] st st' /\
  (forall n, merge_all n (content st (owner c) n) (if blocked st c n then [] else if str_eqb id n then [rule] else []) = fok (content st' (owner c) n)).
Proof.
  induction c as [f t ns d|p IH f o ns d|p IH|p IH t|p IH i|p IH|p IH]; intros Hg st st' W HT HC H; try destruct Hg.
  - cbn [define] in H. apply define_in_ok in H; [|exact W | apply HT; left; reflexivity]. destruct H as (A1 & A2 & A3 & A4). split; [exact A1|]. split; [exact A2|].
    split; [apply ovr_step_same; exact A3 | exact A4].
  - cbn [define] in H. cinv H. unfold get_ovr in E. cfok E. destruct (assoc id (nth o (ovrs st) [])) as [b|] eqn:Ea.
    + apply mark_ok in H; [|apply HC; left; reflexivity]. destruct H as [HR HO]. split; [eapply same_refs_wf; eassumption|]. split; [apply same_refs_ext; exact HR|].
      split; [eapply ovr_step_weak; [| apply incl_refl | exact HO]; intros x [<-|[]]; left; reflexivity|].
      intros n. rewrite (same_refs_content _ _ HR). destruct (str_eqb id n) eqn:Es; [|destruct (blocked _ _ _); reflexivity].
      apply str_eqb_eq in Es. subst n. unfold blocked. cbn [chain existsb]. unfold has at 1. rewrite Ea. reflexivity.
    + apply IH in H; [| exact Hg | exact W | exact HT | intros o' Ho'; apply HC; right; exact Ho']. destruct H as (A1 & A2 & A3 & A4).
      split; [exact A1|]. split; [exact A2|]. split; [eapply ovr_step_weak; [| apply incl_refl | exact A3]; intros x Hx; right; exact Hx|].
      intros n. specialize (A4 n). unfold blocked in *. cbn [chain existsb]. destruct (str_eqb id n) eqn:Es.
      * apply str_eqb_eq in Es. subst n. unfold has at 1. rewrite Ea. exact A4.
      * destruct (existsb _ (chain p)); [rewrite orb_true_r; exact A4|]. destruct (has o st n || false); exact A4.
  - cbn [define] in H. apply define_in_ok in H; [|exact W | apply HT; left; reflexivity]. destruct H as (A1 & A2 & A3 & A4). split; [exact A1|]. split; [exact A2|].
    split; [apply ovr_step_same; exact A3 | exact A4].
Qed.
(** ** References *)
Lemma acquire_impl_ok c id : forall st r st', wf st -> tabs_in st c -> acquire_ref_impl c id st = fok (r, st') ->
  wf st' /\ ext [] st st' /\ ovrs st' = ovrs st /\ look st' (owner c) id = Some r.
Proof.
  induction c as [f t ns d|p IH f o ns d|p IH|p IH t|p IH i|p IH|p IH]; intros st r st' W HT H; cbn [acquire_ref_impl] in H;
    try (apply acquire_in_ok in H; [exact H | exact W | apply HT; left; reflexivity]);
    (apply IH in H; [exact H | exact W | exact HT]).
Qed.
Lemma check_rec_ok c id st st' u : check_ref_recursion c id st = fok (u, st') -> st' = st.
Proof.
  induction c as [f t ns d|p IH f o ns d|p IH|p IH t|p IH i|p IH|p IH]; cbn [check_ref_recursion]; intros H; try (cret H; reflexivity); auto.
  destruct (str_eqb i id); [cbad H | cret H; reflexivity].
Qed.
Lemma acquire_ok c id st r st' : wf st -> tabs_in st c -> acquire_ref c id st = fok (r, st') ->
  wf st' /\ ext [] st st' /\ ovrs st' = ovrs st /\ look st' (owner c) id = Some r.
Proof. intros W HT H. unfold acquire_ref in H. cinv H. apply check_rec_ok in E. subst. eapply acquire_impl_ok; eassumption. Qed.
Lemma acquire_parent_ok c id : forall st r st', wf st -> tabs_in st c -> acquire_parent_ref c id st = fok (r, st') ->
  wf st' /\ ext [] st st' /\ ovrs st' = ovrs st /\ exists t t1 ts, tabs c = t :: t1 :: ts /\ look st' t1 id = Some r.
Proof.
  induction c as [f t ns d|p IH f o ns d|p IH|p IH t|p IH i|p IH|p IH]; intros st r st' W HT H; cbn [acquire_parent_ref] in H; try (cbad H);
    try (apply IH in H; [exact H | exact W | exact HT]).
  apply acquire_ok in H; [|exact W | intros t' Ht'; apply HT; right; exact Ht']. destruct H as (A1 & A2 & A3 & A4). repeat (split; [assumption|]).
  exists t, (owner p), (tl (tabs p)). split; [cbn; f_equal; apply tabs_owner | exact A4].
Qed.

(** ** Declarations and names *)
Definition agrees (c : ctx) (e : fenv) : Prop :=
  (exists f0, file_of c = Some f0 /\ same_dir f0 (fe_path e)) /\ decls_ok (fe_decls e) /\ fe_inherited e = [] /\
  (forall p u, In (DDefault p u) (fe_decls e) -> u <> UInherit) /\
  (forall p u, namespace_uri c p = Some u -> binds_ns (fe_decls e) p u) /\
  (forall p u, binds_dt (fe_decls e) p u -> datatype_uri c p = Some u).
Lemma default_nil c : default_namespace_uri c = [].
Proof. induction c; cbn; auto. Qed.
Lemma default_iff c e u : agrees c e -> default_ns e u <-> u = [].
Proof.
  intros (_ & (D1 & _) & Hi & _). split.
  - intros [p l H|H]; [|exact Hi]. destruct (D1 _ _ H) as (l' & E & E'). injection E as <-. exact E'.
  - intros ->. assert (HD : (exists p u, In (DDefault p u) (fe_decls e)) \/ (forall p u, ~ In (DDefault p u) (fe_decls e))).
    { induction (fe_decls e) as [|d ds IH]; [right; intros p u []|].
      destruct d as [p u|p u|p u]; [|left; exists p, u; left; reflexivity|]; (destruct IH as [(p' & u' & H)|H];
        [intros p' u' H'; apply (D1 p' u'); right; exact H' | left; exists p', u'; right; exact H |]);
        right; intros p' u' [H'|H']; try discriminate H'; exact (H _ _ H'). }
    destruct HD as [(p & u & H)|H].
    + destruct (D1 _ _ H) as (l & -> & E). rewrite <- E. eapply Dn_declared; exact H.
    + rewrite <- Hi. apply Dn_inherited; exact H.
Qed.
Lemma binds_iff c e p u : agrees c e -> namespace_uri c p = Some u -> forall u', binds_ns (fe_decls e) p u' <-> u' = u.
Proof.
  intros (_ & (_ & D2) & _ & _ & N & _) H u'. apply N in H. split; [intros H'; eapply D2; eassumption | intros ->; exact H].
Qed.
Lemma ns_ok c p st u st' : namespace_uri_for_prefix c p st = fok (u, st') -> st' = st /\ namespace_uri c p = Some u.
Proof. unfold namespace_uri_for_prefix. destruct (namespace_uri c p); intros H; [cret H; auto | cbad H]. Qed.
Definition own_ns (c : ctx) : list (str * str) := match c with XRoot _ _ ns _ | XInclude _ _ _ ns _ => ns | _ => [] end.
Definition own_dt (c : ctx) : list (str * str) := match c with XRoot _ _ _ d | XInclude _ _ _ _ d => d | _ => [] end.
Definition with_decls (c : ctx) (ns d : list (str * str)) : ctx :=
  match c with XRoot f t _ _ => XRoot f t ns d | XInclude p f o _ _ => XInclude p f o ns d | _ => c end.
Definition declares (c : ctx) : Prop := match c with XRoot _ _ _ _ | XInclude _ _ _ _ _ => True | _ => False end.
Lemma with_self c : declares c -> with_decls c (own_ns c) (own_dt c) = c.
Proof. destruct c; intros []; reflexivity. Qed.
Lemma with_twice c ns d ns' d' : with_decls (with_decls c ns d) ns' d' = with_decls c ns' d'.
Proof. destruct c; reflexivity. Qed.
Lemma with_declares c ns d : declares c -> declares (with_decls c ns d).
Proof. destruct c; intros []; exact I. Qed.
Lemma own_ns_with c ns d : declares c -> own_ns (with_decls c ns d) = ns.
Proof. destruct c; intros []; reflexivity. Qed.
Lemma own_dt_with c ns d : declares c -> own_dt (with_decls c ns d) = d.
Proof. destruct c; intros []; reflexivity. Qed.
Lemma declare_ns_ok c p u st c' st' : declares c -> declare_namespace c p u st = fok (c', st') ->
  st' = st /\ exists ns, c' = with_decls c ns (own_dt c) /\ forall q v, assoc q ns = Some v -> assoc q (own_ns c) = Some v \/ q = p /\ v = u.
Proof.
  intros D H. destruct c; destruct D; cbn [declare_namespace] in H; (destruct (assoc p ns) eqn:E; cret H; (split; [reflexivity|]));
    (exists ns; split; [reflexivity | auto; fail]) || (exists (ns ++ [(p, u)]); split; [reflexivity|]; intros q v Hq; rewrite assoc_app in Hq; cbn [own_ns]; destruct (assoc q ns) eqn:Eq; [left; exact Hq|];
      right; rewrite assoc_one in Hq; destruct (str_eqb p q) eqn:Es; [|discriminate Hq]; apply str_eqb_eq in Es; injection Hq as <-; auto).
Qed.
Lemma declare_dt_ok c p u st c' st' : declares c -> declare_datatype c p u st = fok (c', st') ->
  st' = st /\ exists d, c' = with_decls c (own_ns c) d /\ assoc p d = Some u /\ forall q v, assoc q (own_dt c) = Some v -> assoc q d = Some v.
Proof.
  intros D H. destruct c; destruct D; cbn [declare_datatype] in H; (destruct (assoc p dts) eqn:E; [cbad H|]; cret H; (split; [reflexivity|]));
    exists (dts ++ [(p, u)]); (split; [reflexivity|]); (split; [rewrite assoc_app, E, assoc_one, str_eqb_refl; reflexivity|]); intros q v Hq; cbn [own_dt] in Hq; rewrite assoc_app, Hq; reflexivity.
Qed.
Lemma declarations_ok l : forall c st c' st', declares c -> compile_declarations c l st = fok (c', st') ->
  st' = st /\ exists ns d, c' = with_decls c ns d /\
    (forall p u, assoc p ns = Some u -> assoc p (own_ns c) = Some u \/ binds_ns l p u) /\
    (forall p u, assoc p (own_dt c) = Some u -> assoc p d = Some u) /\
    (forall p u, In (DDatatypes p u) l -> assoc p d = Some (lit_value u)) /\
    (forall p u, In (DDefault p u) l -> u <> UInherit).
Proof.
  induction l as [|d l IH]; intros c st c' st' D H; cbn [compile_declarations] in H.
  - cret H. split; [reflexivity|]. exists (own_ns c'), (own_dt c'). rewrite with_self by exact D. split; [reflexivity|]. split; [auto|]. split; [auto|]. split; intros p u [].
  - cinv H.
    assert (HB : forall p u, binds_ns l p u -> binds_ns (d :: l) p u).
    { intros p u [|p' l' Hi|p' l' Hi]; [constructor | eapply Bn_ns; right; exact Hi | eapply Bn_default; right; exact Hi]. }
    destruct d as [p u|p u|p u]; cbn [compile_declaration] in E.
    + destruct u as [|u]; [cbad E|]. apply declare_ns_ok in E; [|exact D]. destruct E as [-> (ns & -> & Hns)].
      apply IH in H; [|apply with_declares; exact D]. destruct H as [-> (ns2 & d2 & -> & K1 & K2 & K3 & K4)]. split; [reflexivity|].
      exists ns2, d2. rewrite with_twice. rewrite own_ns_with in K1 by exact D. rewrite own_dt_with in K2 by exact D.
      split; [reflexivity|]. split; [|split; [exact K2 | split]].
      * intros q v Hq. apply K1 in Hq. destruct Hq as [Hq|Hq]; [|right; apply HB; exact Hq]. apply Hns in Hq. destruct Hq as [Hq|[-> ->]]; [left; exact Hq | right; apply Bn_ns; left; reflexivity].
      * intros q v [Hq|Hq]; [discriminate Hq | apply K3; exact Hq].
      * intros q v [Hq|Hq]; [discriminate Hq | eapply K4; exact Hq].
    + destruct u as [|u]; [cbad E|]. destruct p as [p|].
      * apply declare_ns_ok in E; [|exact D]. destruct E as [-> (ns & -> & Hns)].
        apply IH in H; [|apply with_declares; exact D]. destruct H as [-> (ns2 & d2 & -> & K1 & K2 & K3 & K4)]. split; [reflexivity|].
        exists ns2, d2. rewrite with_twice. rewrite own_ns_with in K1 by exact D. rewrite own_dt_with in K2 by exact D.
        split; [reflexivity|]. split; [|split; [exact K2 | split]].
        -- intros q v Hq. apply K1 in Hq. destruct Hq as [Hq|Hq]; [|right; apply HB; exact Hq]. apply Hns in Hq. destruct Hq as [Hq|[-> ->]]; [left; exact Hq | right; eapply Bn_default; left; reflexivity].
        -- intros q v [Hq|Hq]; [discriminate Hq | apply K3; exact Hq].
        -- intros q v [Hq|Hq]; [injection Hq as _ <-; discriminate | eapply K4; exact Hq].
      * cret E. apply IH in H; [|exact D]. destruct H as [-> (ns2 & d2 & -> & K1 & K2 & K3 & K4)]. split; [reflexivity|]. exists ns2, d2.
        split; [reflexivity|]. split; [|split; [exact K2 | split]].
        -- intros q v Hq. apply K1 in Hq. destruct Hq as [Hq|Hq]; [left; exact Hq | right; apply HB; exact Hq].
        -- intros q v [Hq|Hq]; [discriminate Hq | apply K3; exact Hq].
        -- intros q v [Hq|Hq]; [injection Hq as _ <-; discriminate | eapply K4; exact Hq].
    + apply declare_dt_ok in E; [|exact D]. destruct E as [-> (d0 & -> & Hp & Hd)].
      apply IH in H; [|apply with_declares; exact D]. destruct H as [-> (ns2 & d2 & -> & K1 & K2 & K3 & K4)]. split; [reflexivity|].
      exists ns2, d2. rewrite with_twice. rewrite own_ns_with in K1 by exact D. rewrite own_dt_with in K2 by exact D.
      split; [reflexivity|]. split; [|split; [|split]].
      * intros q v Hq. apply K1 in Hq. destruct Hq as [Hq|Hq]; [left; exact Hq | right; apply HB; exact Hq].
      * intros q v Hq. apply K2, Hd, Hq.
      * intros q v [Hq|Hq]; [injection Hq as <- <-; apply K2; exact Hp | apply K3; exact Hq].
      * intros q v [Hq|Hq]; [discriminate Hq | eapply K4; exact Hq].
Qed.
Lemma declared_agrees f ds c st c' st' : declares c -> own_ns c = initial_ns -> own_dt c = initial_dts -> file_of c = Some f -> decls_ok ds ->
  compile_declarations c ds st = fok (c', st') -> st' = st /\ (exists ns d, c' = with_decls c ns d) /\ agrees c' (FEnv f ds []).
Proof.
  intros D En Ed Hf Hok H. apply declarations_ok in H; [|exact D]. destruct H as [-> (ns & d & -> & K1 & K2 & K3 & K4)]. split; [reflexivity|]. split; [exists ns, d; reflexivity|].
  rewrite En in K1. rewrite Ed in K2.
  assert (HN : forall p u, namespace_uri (with_decls c ns d) p = Some u -> binds_ns ds p u).
  { intros p u H. assert (Hp : assoc p ns = Some u) by (destruct c; destruct D; exact H). apply K1 in Hp. destruct Hp as [Hp|Hp]; [|exact Hp].
    unfold initial_ns in Hp. rewrite assoc_one in Hp. destruct (str_eqb (lit "xml") p) eqn:Es; [|discriminate Hp]. apply str_eqb_eq in Es. subst p. injection Hp as <-. constructor. }
  assert (HD : forall p u, binds_dt ds p u -> assoc p d = Some u).
  { intros p u [|p' l Hi]; [|apply K3; exact Hi]. apply K2. unfold initial_dts. rewrite assoc_one, str_eqb_refl. reflexivity. }
  split; [exists f; split; [destruct c; destruct D; exact Hf | intros h; reflexivity]|]. split; [exact Hok|]. split; [reflexivity|]. split; [exact K4|]. split; [exact HN|].
  intros p u Hb. apply HD in Hb. destruct c; destruct D; cbn [with_decls datatype_uri]; rewrite Hb; reflexivity.
Qed.
Lemma agrees_overrides c e f o : agrees c e -> agrees (XOverrides (XInclude c f o initial_ns initial_dts)) e.
Proof.
  intros (A1 & A2 & A3 & A4 & A5 & A6). split; [exact A1|]. split; [exact A2|]. split; [exact A3|]. split; [exact A4|]. split.
  - intros p u H. cbn [namespace_uri] in H. unfold initial_ns in H. rewrite assoc_one in H. destruct (str_eqb (lit "xml") p) eqn:Es; [|discriminate H].
    apply str_eqb_eq in Es. subst p. injection H as <-. constructor.
  - intros p u H. cbn [datatype_uri]. unfold initial_dts. rewrite assoc_one. destruct (str_eqb (lit "xsd") p) eqn:Es; [|apply A6; exact H].
    apply str_eqb_eq in Es. subst p. rewrite <- (A6 _ _ H). symmetry. apply A6. constructor.
Qed.

Section SncInd.
Variable P : snc -> Prop.
Hypothesis h1 : forall n, P (CName n).
Hypothesis h2 : forall n ex, (match ex with Some x => P x | None => True end) -> P (CNs n ex).
Hypothesis h3 : forall ex, (match ex with Some x => P x | None => True end) -> P (CAny ex).
Hypothesis h4 : forall a, P a -> forall b, P b -> P (CAlt a b).
Hypothesis h5 : forall a, P a -> P (CParen a).
Fixpoint snc_ind' (n : snc) : P n :=
  match n with
  | CName n => h1 n
  | CNs n ex => h2 n ex (match ex with Some x => snc_ind' x | None => I end)
  | CAny ex => h3 ex (match ex with Some x => snc_ind' x | None => I end)
  | CAlt a b => h4 a (snc_ind' a) b (snc_ind' b)
  | CParen a => h5 a (snc_ind' a)
  end.
End SncInd.
Lemma nameclass_ok e el n : forall c st n' st', agrees c e -> compile_nameclass c el n st = fok (n', st') -> st' = st /\ forall q, in_class n' q <-> in_snc e el n q.
Proof.
  induction n as [nm|nm ex IH|ex IH|a IHa b IHb|a IHa] using snc_ind'; intros c st n' st' A H; cbn [compile_nameclass] in H.
  - destruct nm as [i|p l|u l].
    + cret H. split; [reflexivity|]. intros q. cbn [in_class in_snc]. rewrite default_nil. destruct el; [|reflexivity]. rewrite (default_iff c e (uri q) A). reflexivity.
    + cinv H. apply ns_ok in E. destruct E as [-> E]. cret H. split; [reflexivity|]. intros q. cbn [in_class in_snc]. rewrite (binds_iff c e p x A E (uri q)). reflexivity.
    + cret H. split; [reflexivity|]. intros q. reflexivity.
  - cinv H. cinv H. cret H.
    assert (HU : st' = st0 /\ forall v, (match nm with NsPrefix p => binds_ns (fe_decls e) p v | NsUri u => v = lit_value u end) <-> v = x0).
    { destruct nm as [p|u]; [apply ns_ok in E0; destruct E0 as [-> E0]; split; [reflexivity|]; intros v; apply (binds_iff c e p x0 A E0 v) | cret E0; split; [reflexivity|]; intros; reflexivity]. }
    destruct HU as [-> HU]. destruct ex as [ex|].
    + cinv E. cret E. apply (IH c) in E1; [|exact A]. destruct E1 as [-> E1]. split; [reflexivity|]. intros q. cbn [in_class in_snc]. rewrite HU, E1. reflexivity.
    + cret E. split; [reflexivity|]. intros q. cbn [in_class in_snc]. rewrite HU. tauto.
  - cinv H. cret H. destruct ex as [ex|].
    + cinv E. cret E. apply (IH c) in E0; [|exact A]. destruct E0 as [-> E0]. split; [reflexivity|]. intros q. cbn [in_class in_snc]. rewrite E0. reflexivity.
    + cret E. split; [reflexivity|]. intros q. reflexivity.
  - cinv H. cinv H. cret H. apply (IHa c) in E; [|exact A]. apply (IHb c) in E0; [|exact A]. destruct E as [-> E]. destruct E0 as [-> E0]. split; [reflexivity|].
    intros q. cbn [in_class in_snc]. rewrite E, E0. reflexivity.
  - apply (IHa c) in H; [|exact A]. exact H.
Qed.
Lemma dtname_ok' c e n st d st' : agrees c e -> dtname_ok (fe_decls e) n -> compile_dtname c n st = fok (d, st') -> st' = st /\ forall d', denotes_dt e n d' <-> d' = d.
Proof.
  intros (_ & _ & _ & _ & _ & A6) Hn H. destruct n as [| |p l|u l]; cbn [compile_dtname] in H.
  - cret H. split; [reflexivity|]. intros d'. split; [intros K; inversion K; reflexivity | intros ->; constructor].
  - cret H. split; [reflexivity|]. intros d'. split; [intros K; inversion K; reflexivity | intros ->; constructor].
  - cinv H. cret H. unfold try_datatype_uri in E. destruct (datatype_uri c p) as [u|] eqn:Eu; [|cbad E]. cret E. split; [reflexivity|].
    intros d'. split.
    + intros K. inversion K; subst. match goal with H : binds_dt _ _ _ |- _ => apply A6 in H end. congruence.
    + intros ->. constructor. destruct Hn as [u Hu]. pose proof (A6 _ _ Hu). congruence.
  - cret H. split; [reflexivity|]. intros d'. split; [intros K; inversion K; reflexivity | intros ->; constructor].
Qed.

(** ** Patterns and grammar contents *)
Section Main.
Variable O : oracles.
Variable C : coracles.
Variable fs : filesys.
Hypothesis Hfs : files_ok fs.
Notation Tr := (Tr fs O C).
Definition TrL (st : cst) (ts : list nat) (dx : list (sdef * mpat)) : Prop := Forall (fun p => Tr st (d_env (fst p)) ts (d_body (fst p)) (snd p)) dx.

Definition PP (c : ctx) (e : fenv) (p : spat) (st : cst) (X : mpat) (st' : cst) : Prop :=
  wf st' /\ ext [] st st' /\ ovr_step [] [] st st' /\ forall fin, ext (tabs c) st' fin -> Tr fin e (tabs c) p X.
(** [dx]: the definitions made, with their compiled bodies *)
Definition CPx (c : ctx) (st st' : cst) (dx : list (sdef * mpat)) : Prop :=
  wf st' /\ ext [owner c] st st' /\ ovr_step (chain c) (names_of (map fst dx)) st st' /\
  (forall fin, ext (tabs c) st' fin -> TrL fin (tabs c) dx) /\
  (forall n, merged n (content st (owner c) n) (if blocked st c n then [] else dx) = fok (content st' (owner c) n)).
Definition CP (c : ctx) (e : fenv) (l : list gcontent) (st st' : cst) : Prop :=
  exists dx, (forall ds, Expand fs e l ds <-> ds = map fst dx) /\ CPx c st st' dx.

Lemma merged_app n acc dx1 dx2 : merged n acc (dx1 ++ dx2) = fbind (merged n acc dx1) (fun x => merged n x dx2).
Proof. unfold merged, hx_of. rewrite filter_app, !map_app, merge_all_app. reflexivity. Qed.
Lemma merged_nil n acc : merged n acc [] = fok acc.
Proof. reflexivity. Qed.
Lemma CPx_nil c st : wf st -> CPx c st st [].
Proof.
  intros W. split; [exact W|]. split; [apply ext_refl|]. split; [apply ovr_step_same; reflexivity|]. split; [intros; constructor|].
  intros n. destruct (blocked st c n); reflexivity.
Qed.
Lemma owner_tabs c own : incl own [owner c] -> incl own (tabs c).
Proof. intros H x Hx. apply H in Hx. rewrite tabs_owner. destruct Hx as [<-|[]]. left; reflexivity. Qed.
Lemma CPx_app c st st1 st2 dx1 dx2 : chain_in st c -> CPx c st st1 dx1 -> CPx c st1 st2 dx2 -> CPx c st st2 (dx1 ++ dx2).
Proof.
  intros HC (A1 & A2 & A3 & A4 & A5) (B1 & B2 & B3 & B4 & B5). split; [exact B1|]. split; [eapply ext_trans; eassumption|].
  split; [unfold names_of in *; rewrite !map_app; eapply ovr_step_trans; eassumption|]. split.
  - intros fin Hf. apply Forall_app. split; [|apply B4; exact Hf]. apply A4. eapply ext_trans; [|exact Hf]. eapply ext_mono; [|exact B2]. apply owner_tabs, incl_refl.
  - intros n. specialize (A5 n). specialize (B5 n). rewrite (ovr_step_blocked _ _ _ _ c n A3 HC) in B5. destruct (blocked st c n).
    + rewrite merged_nil in *. injection A5 as ->. exact B5.
    + rewrite merged_app, A5. exact B5.
Qed.
Lemma Expand_cons e g l ds : Expand fs e (g :: l) ds <-> exists d1 d2, Expand fs e [g] d1 /\ Expand fs e l d2 /\ ds = d1 ++ d2.
Proof.
  split.
  - intros H. inversion H; subst.
    + exists [SDef n h e p], ds0. split; [repeat constructor|]. auto.
    + exists ds1, ds0. split; [rewrite <- (app_nil_r ds1); constructor; [assumption | constructor]|]. auto.
    + exists [], ds. split; [repeat constructor|]. auto.
    + exists (os ++ filter (not_among (names_of os)) inner), ds0. split; [|split; [assumption | subst os; rewrite app_assoc; reflexivity]].
      rewrite <- (app_nil_r (filter _ inner)). eapply Ex_include; eauto. constructor.
  - intros (d1 & d2 & H1 & H2 & ->). inversion H1; subst.
    + match goal with H : Expand _ _ [] _ |- _ => inversion H; subst end. cbn. constructor; exact H2.
    + match goal with H : Expand _ _ [] _ |- _ => inversion H; subst end. rewrite app_nil_r. constructor; assumption.
    + match goal with H : Expand _ _ [] _ |- _ => inversion H; subst end. cbn. constructor; exact H2.
    + match goal with H : Expand _ _ [] _ |- _ => inversion H; subst end. rewrite app_nil_r, <- app_assoc. eapply Ex_include; eauto.
Qed.
Lemma CP_nil c e st : wf st -> CP c e [] st st.
Proof. intros W. exists []. split; [|apply CPx_nil; exact W]. intros ds. split; [intros H; inversion H; reflexivity | intros ->; constructor]. Qed.
Lemma CP_cons c e g l st st1 st2 : chain_in st c -> CP c e [g] st st1 -> CP c e l st1 st2 -> CP c e (g :: l) st st2.
Proof.
  intros HC (dx1 & E1 & A) (dx2 & E2 & B). exists (dx1 ++ dx2). split; [|eapply CPx_app; eassumption].
  intros ds. rewrite Expand_cons, map_app. split.
  - intros (d1 & d2 & H1 & H2 & ->). apply E1 in H1. apply E2 in H2. congruence.
  - intros ->. exists (map fst dx1), (map fst dx2). split; [apply E1; reflexivity|]. split; [apply E2; reflexivity | reflexivity].
Qed.
Lemma PP_state c e p st X st' : PP c e p st X st' -> wf st' /\ ext [] st st' /\ ovr_step [] [] st st'.
Proof. intros (A & B & D & _). auto. Qed.
Lemma PP_then c own st1 st2 fin : ext [] st1 st2 -> ext (tabs c) st2 fin -> ext own st1 st1 -> ext (tabs c) st1 fin.
Proof. intros H1 H2 _. eapply ext_trans; [|exact H2]. eapply ext_mono; [|exact H1]. intros x []. Qed.

(** one definition *)
Lemma define_CPx c e n how p st X st1 st2 : gctx c -> wf st -> tabs_in st c -> chain_in st c ->
  PP (XDefine c n) e p st X st1 -> define c n (rule_of how X) st1 = fok (tt, st2) -> CPx c st st2 [(SDef n how e p, X)].
Proof.
  intros Hg W HT HC (A1 & A2 & A3 & A4) H. cbn [tabs] in A4. apply define_ok in H; [|exact Hg | exact A1 | eapply tabs_in_ext; eassumption | eapply chain_in_step; eassumption].
  destruct H as (B1 & B2 & B3 & B4). split; [exact B1|].
  split; [eapply ext_trans; [eapply ext_mono; [|exact A2]; intros x [] | exact B2]|]. split.
  { change (names_of (map fst [(SDef n how e p, X)])) with ([] ++ [n]). eapply ovr_step_trans; [eapply ovr_step_weak; [| |exact A3]; intros x [] | exact B3]. }
  split.
  - intros fin Hf. constructor; [|constructor]. cbn. apply A4. eapply ext_trans; [|exact Hf]. eapply ext_mono; [|exact B2]. apply owner_tabs, incl_refl.
  - intros n'. specialize (B4 n'). rewrite (ovr_step_blocked _ _ _ _ c n' A3 HC) in B4.
    destruct A2 as (_ & _ & A2). rewrite (A2 (owner c) n' (owner_in _ _ HT) ltac:(intros [])) in B4.
    destruct (blocked st c n'); [exact B4|]. unfold merged, hx_of. cbn [filter fst is_named d_name]. unfold is_named. cbn [d_name].
    destruct (str_eqb n n'); exact B4.
Qed.

Section Rec.
Variable rp : ctx -> spat -> CM mpat.
Variable ri : ctx -> list gcontent -> CM unit.
Hypothesis Hri : forall c e l st st', contents_ok fs (fe_path e) (fe_decls e) l -> gctx c -> agrees c e -> wf st -> tabs_in st c -> chain_in st c ->
  ri c l st = fok (tt, st') -> CP c e l st st'.
Hypothesis Hrp : forall c e p st X st', pat_ok fs (fe_path e) (fe_decls e) p -> agrees c e -> wf st -> tabs_in st c ->
  rp c p st = fok (X, st') -> PP c e p st X st'.
Notation compile_pattern := (compile_pattern O C fs rp ri).
Notation compile_content := (compile_content O C fs rp ri).
Notation compile_override := (compile_override O C fs rp ri).

(** an override block *)
Definition OPx (q : ctx) (o : nat) (st st' : cst) (dx : list (sdef * mpat)) : Prop :=
  wf st' /\ ext [owner q] st st' /\
  List.length (ovrs st) <= List.length (ovrs st') /\
  (forall o', o' < List.length (ovrs st) -> ~ In o' (o :: chain q) -> nth o' (ovrs st') [] = nth o' (ovrs st) []) /\
  (forall o', o' < List.length (ovrs st) -> o' <> o -> map fst (nth o' (ovrs st') []) = map fst (nth o' (ovrs st) []) /\
    forall n, assoc n (nth o' (ovrs st') []) = Some true -> assoc n (nth o' (ovrs st) []) = Some true \/ In n (names_of (map fst dx))) /\
  nth o (ovrs st') [] = nth o (ovrs st) [] ++ map (fun n => (n, false)) (names_of (map fst dx)) /\
  (forall fin, ext (tabs q) st' fin -> TrL fin (tabs q) dx) /\
  (forall n, merged n (content st (owner q) n) (if blocked st q n then [] else dx) = fok (content st' (owner q) n)).
Definition P_pat (p : spat) : Prop := forall c e st X st', pat_ok fs (fe_path e) (fe_decls e) p -> agrees c e -> wf st -> tabs_in st c ->
  compile_pattern c p st = fok (X, st') -> PP c e p st X st'.
Definition P_con (g : gcontent) : Prop := forall c e st st', content_ok fs (fe_path e) (fe_decls e) g -> gctx c -> agrees c e -> wf st -> tabs_in st c -> chain_in st c ->
  compile_content c g st = fok (tt, st') -> CP c e [g] st st'.
Definition P_ovr (i : icontent) : Prop := forall q f o e st st', override_ok fs (fe_path e) (fe_decls e) i -> gctx q -> agrees q e -> wf st -> tabs_in st q ->
  o < List.length (ovrs st) -> (forall o', In o' (chain q) -> o' < o) ->
  compile_override (XOverrides (XInclude q f o initial_ns initial_dts)) i st = fok (tt, st') ->
  exists dx, map fst dx = overrides1 e i /\ OPx q o st st' dx.

Lemma blocked_keys q o st st' n : (forall o', In o' (chain q) -> o' < o) -> o < List.length (ovrs st) ->
  (forall o', o' < List.length (ovrs st) -> o' <> o -> map fst (nth o' (ovrs st') []) = map fst (nth o' (ovrs st) [])) -> blocked st' q n = blocked st q n.
Proof.
  intros Hc Ho Hk. unfold blocked. induction (chain q) as [|o' l IH]; [reflexivity|]. cbn. f_equal.
  - unfold has. apply keys_has. specialize (Hc o' ltac:(left; reflexivity)). apply Hk; lia.
  - apply IH. intros; apply Hc; right; assumption.
Qed.
Lemma OPx_nil q o st : wf st -> OPx q o st st [].
Proof.
  intros W. split; [exact W|]. split; [apply ext_refl|]. split; [lia|]. split; [auto|]. split; [intros; split; auto|]. split; [cbn; rewrite app_nil_r; reflexivity|].
  split; [intros; constructor|]. intros n. destruct (blocked st q n); reflexivity.
Qed.
Lemma OPx_app q o st st1 st2 dx1 dx2 : o < List.length (ovrs st) -> (forall o', In o' (chain q) -> o' < o) ->
  OPx q o st st1 dx1 -> OPx q o st1 st2 dx2 -> OPx q o st st2 (dx1 ++ dx2).
Proof.
  intros Ho HC (A1 & A2 & A3 & A4 & A5 & A6 & A7 & A8) (B1 & B2 & B3 & B4 & B5 & B6 & B7 & B8). split; [exact B1|]. split; [eapply ext_trans; eassumption|].
  split; [lia|]. split; [intros o' H1 H2; rewrite B4 by (assumption || lia); apply A4; assumption|]. split; [|split; [|split]].
  - intros o' H1 H2. destruct (A5 o' H1 H2) as [K1 K2]. destruct (B5 o' ltac:(lia) H2) as [L1 L2]. split; [congruence|].
    unfold names_of in *. rewrite !map_app. intros n Hn. apply L2 in Hn. destruct Hn as [Hn|Hn]; [apply K2 in Hn; destruct Hn as [Hn|Hn]; [left; exact Hn|]|]; right; apply in_app_iff; auto.
  - rewrite B6, A6. unfold names_of. rewrite !map_app, app_assoc. reflexivity.
  - intros fin Hf. apply Forall_app. split; [|apply B7; exact Hf]. apply A7. eapply ext_trans; [|exact Hf]. eapply ext_mono; [|exact B2]. apply owner_tabs, incl_refl.
  - intros n. specialize (A8 n). specialize (B8 n).
    rewrite (blocked_keys q o st st1 n HC Ho (fun o' h1 h2 => proj1 (A5 o' h1 h2))) in B8. destruct (blocked st q n).
    + rewrite merged_nil in *. injection A8 as ->. exact B8.
    + rewrite merged_app, A8. exact B8.
Qed.
Lemma contents_iter l : Forall P_con l -> forall c e st st', contents_ok fs (fe_path e) (fe_decls e) l -> gctx c -> agrees c e -> wf st -> tabs_in st c -> chain_in st c ->
  citer (compile_content c) l st = fok (tt, st') -> CP c e l st st'.
Proof.
  induction 1 as [|g l Hg Hl IH]; intros c e st st' Hok HG HA W HT HC H.
  - cbn in H. cret H. apply CP_nil; exact W.
  - cbn [citer] in H. cinv H. destruct x. destruct Hok as [Ho1 Ho2]. apply (Hg c e) in E; try assumption. destruct E as (dx & E1 & K).
    pose proof K as (K1 & K2 & K3 & _).
    apply (IH c e) in H; try assumption; [|eapply tabs_in_ext; eassumption | eapply chain_in_step; eassumption].
    eapply CP_cons; [exact HC | exists dx; split; [exact E1 | exact K] | exact H].
Qed.
Lemma overrides_iter l : Forall P_ovr l -> forall q f o e st st', (fix all (l : list icontent) : Prop := match l with [] => True | i :: l' => override_ok fs (fe_path e) (fe_decls e) i /\ all l' end) l ->
  gctx q -> agrees q e -> wf st -> tabs_in st q ->
  o < List.length (ovrs st) -> (forall o', In o' (chain q) -> o' < o) ->
  citer (fun i => cmap_err EInclude (compile_override (XOverrides (XInclude q f o initial_ns initial_dts)) i)) l st = fok (tt, st') ->
  exists dx, map fst dx = overrides e l /\ OPx q o st st' dx.
Proof.
  induction 1 as [|g l Hg Hl IH]; intros q f o e st st' Hok HG HA W HT Ho HC H.
  - cbn in H. cret H. exists []. split; [reflexivity | apply OPx_nil; exact W].
  - cbn [citer] in H. cinv H. destruct x. apply cmap_err_ok in E. destruct Hok as [Ho1 Ho2]. apply (Hg q f o e) in E; try assumption. destruct E as (dx & E1 & K).
    pose proof K as (K1 & K2 & K3 & _).
    apply (IH q f o e) in H; try assumption; [|eapply tabs_in_ext; eassumption | lia]. destruct H as (dx2 & E2 & K').
    exists (dx ++ dx2). split; [rewrite map_app, E1, E2; reflexivity|]. eapply OPx_app; eassumption.
Qed.
Lemma agrees_sub c e : agrees c e -> agrees (XElement c) e /\ agrees (XAttribute c) e /\ (forall n, agrees (XDefine c n) e) /\ (forall t, agrees (XGrammar c t) e).
Proof. intros H. repeat split; try apply H; intros; apply H; assumption. Qed.
Lemma PP_map c e p p' st X X' st' : PP c e p st X st' -> (forall fin, Tr fin e (tabs c) p X -> Tr fin e (tabs c) p' X') -> PP c e p' st X' st'.
Proof. intros (A1 & A2 & A3 & A4) H. split; [exact A1|]. split; [exact A2|]. split; [exact A3|]. intros fin Hf. apply H, A4, Hf. Qed.
Lemma PP_pure c e p st X : wf st -> (forall fin, Tr fin e (tabs c) p X) -> PP c e p st X st.
Proof. intros W H. split; [exact W|]. split; [apply ext_refl|]. split; [apply ovr_step_same; reflexivity|]. intros; apply H. Qed.
Lemma PP_pair c e p q pq st X st1 Y st2 Z : PP c e p st X st1 -> PP c e q st1 Y st2 ->
  (forall fin, Tr fin e (tabs c) p X -> Tr fin e (tabs c) q Y -> Tr fin e (tabs c) pq Z) -> PP c e pq st Z st2.
Proof.
  intros (A1 & A2 & A3 & A4) (B1 & B2 & B3 & B4) H. split; [exact B1|]. split; [eapply ext_trans; eassumption|].
  split; [eapply (ovr_step_trans [] [] []); eassumption|]. intros fin Hf. apply H; [|apply B4; exact Hf]. apply A4. eapply ext_trans; [|exact Hf]. eapply ext_mono; [|exact B2]. intros x [].
Qed.
Lemma values_eq ps : param_values ps = values_of ps.
Proof. destruct ps as [l|]; [|reflexivity]. cbn. apply map_ext. intros [[i k] v]. reflexivity. Qed.
Lemma lift_dt_ok {A} (x : fres dt_error A) st a st' : lift_dt x st = fok (a, st') -> st' = st /\ x = Ok (inl a).
Proof. unfold lift_dt, fmap_err, fbind. destruct x as [[y|e]|p|]; cbn; intros H; try discriminate H. injection H as <- <-. auto. Qed.
Lemma path_from_ok c e href st f st' : agrees c e -> path_from c href st = fok (f, st') -> st' = st /\ resolve (fe_path e) (lit_value href) = Some f.
Proof.
  intros ((f0 & A & A') & _) H. unfold path_from in H. rewrite A, A' in H. destruct (resolve _ _); [cret H; auto | cbad H].
Qed.
Lemma get_schema_ok f st s st' : get_schema fs f st = fok (s, st') -> fs f = inl s /\ same_refs st st' /\ ovrs st' = ovrs st.
Proof. unfold get_schema. destruct (fs f); intros H; [|cbad H]. apply fok_inj in H. destruct H as [-> <-]. split; [reflexivity|]. split; [split; reflexivity | reflexivity]. Qed.
Lemma check_include_ok c f st u st' : check_include c f st = fok (u, st') -> st' = st.
Proof.
  induction c; cbn [check_include]; intros H; try (cret H; reflexivity); auto. destruct (path_eqb f file); [cbad H | auto].
Qed.
Lemma new_include_ok c f st inc st' : new_include c f st = fok (inc, st') -> inc = XInclude c f (List.length (ovrs st)) initial_ns initial_dts /\ same_refs st st' /\ ovrs st' = ovrs st ++ [[]].
Proof.
  unfold new_include. intros H. cinv H. apply check_include_ok in E. subst st0. cinv H. unfold new_ovr in E. cfok E. cret H.
  split; [reflexivity|]. split; [split; reflexivity | reflexivity].
Qed.
Lemma all_contents f ds l : (fix all (l : list gcontent) : Prop := match l with [] => True | g :: l' => content_ok fs f ds g /\ all l' end) l <-> contents_ok fs f ds l.
Proof. induction l as [|g l IH]; [reflexivity|]. cbn. rewrite IH. reflexivity. Qed.
Definition keep (ns : list str) (dx : list (sdef * mpat)) : list (sdef * mpat) := filter (fun p => not_among ns (fst p)) dx.
Lemma keep_fst ns dx : map fst (keep ns dx) = filter (not_among ns) (map fst dx).
Proof. unfold keep. induction dx as [|[d X] dx IH]; [reflexivity|]. cbn. destruct (not_among ns d); cbn; rewrite IH; reflexivity. Qed.
Lemma keep_hx n ns dx : hx_of n (keep ns dx) = if in_dec str_eq_dec n ns then [] else hx_of n dx.
Proof.
  unfold hx_of, keep. induction dx as [|[d X] dx IH]; [destruct (in_dec _ _ _); reflexivity|]. cbn [filter fst].
  unfold not_among at 1. destruct (in_dec str_eq_dec (d_name d) ns) as [Hi|Hi].
  - rewrite IH. destruct (in_dec str_eq_dec n ns) as [Hn|Hn]; [reflexivity|]. cbn [filter fst]. unfold is_named at 2.
    destruct (str_eqb (d_name d) n) eqn:E; [|reflexivity]. apply str_eqb_eq in E. subst. contradiction.
  - cbn [filter fst]. unfold is_named at 1. destruct (str_eqb (d_name d) n) eqn:E.
    + apply str_eqb_eq in E. subst. cbn [map]. rewrite IH. destruct (in_dec str_eq_dec (d_name d) ns); [contradiction|]. cbn [filter fst]. unfold is_named at 2. rewrite str_eqb_refl. reflexivity.
    + rewrite IH. destruct (in_dec str_eq_dec n ns); [reflexivity|]. cbn [filter fst]. unfold is_named at 2. rewrite E. reflexivity.
Qed.
Lemma assoc_false ns n : assoc n (map (fun n => (n, false)) ns) = if in_dec str_eq_dec n ns then Some false else None.
Proof.
  induction ns as [|k ns IH]; [reflexivity|]. cbn [map assoc]. destruct (str_eqb k n) eqn:E.
  - apply str_eqb_eq in E. subst k. destruct (in_dec str_eq_dec n (n :: ns)) as [H|H]; [reflexivity | exfalso; apply H; left; reflexivity].
  - rewrite IH. apply str_eqb_neq in E. destruct (in_dec str_eq_dec n ns) as [H|H], (in_dec str_eq_dec n (k :: ns)) as [H'|H']; try reflexivity.
    + exfalso; apply H'; right; exact H.
    + destruct H' as [H'|H']; contradiction.
Qed.
Lemma all_true (l : list (str * bool)) n : find (fun '(_, b) => negb b) l = None -> In n (map fst l) -> assoc n l = Some true.
Proof.
  induction l as [|[k b] l IH]; intros H Hi; [destruct Hi|]. cbn in H. destruct b; [|discriminate H]. cbn. destruct (str_eqb k n) eqn:E; [reflexivity|].
  apply IH; [exact H|]. destruct Hi as [Hi|Hi]; [|exact Hi]. cbn in Hi. apply str_eqb_neq in E. contradiction.
Qed.
Lemma contents_of_file s l l' : file_contents s l -> file_contents s l' -> l' = l.
Proof. intros H H'. destruct H; inversion H'; reflexivity. Qed.
Lemma blocked_old c n st st2 : (forall o, In o (chain c) -> nth o (ovrs st2) [] = nth o (ovrs st) []) -> blocked st2 c n = blocked st c n.
Proof.
  unfold blocked. induction (chain c) as [|o l IH]; intros H; [reflexivity|]. cbn. f_equal; [unfold has; rewrite H by (left; reflexivity); reflexivity|].
  apply IH. intros; apply H; right; assumption.
Qed.
Lemma include_ok h i ov : (match ov with Some l => Forall P_ovr l | None => True end) -> P_con (GInclude h i ov).
Proof.
  intros Hov c e st st' Hok HG HA W HT HC H. cbn [SchemaCompile.compile_content] in H. destruct Hok as [-> Hok].
  cinv H. apply (path_from_ok c e) in E; [|exact HA]. destruct E as [-> Ef]. rename x into f.
  cinv H. apply cmap_err_ok, get_schema_ok in E. destruct E as (Es & R1 & V1). rename x into s. rename st0 into st1.
  cinv H. apply new_include_ok in E. destruct E as (-> & R2 & V2). rename st0 into st2.
  assert (R : same_refs st st2) by (destruct R1 as [? ?], R2 as [? ?]; split; congruence). rewrite V1 in V2.
  set (o := List.length (ovrs st1)) in *. assert (Eo : o = List.length (ovrs st)) by (subst o; rewrite V1; reflexivity). clearbody o. subst o.
  set (o := List.length (ovrs st)) in *.
  cinv H. cbn [inherit_prefix] in E. cret E. rename st0 into st2.
  assert (W2 : wf st2) by (eapply same_refs_wf; eassumption).
  assert (HT2 : tabs_in st2 c) by (eapply tabs_in_ext; [apply (same_refs_ext []); exact R | exact HT]).
  assert (Lo : List.length (ovrs st2) = S o) by (rewrite V2, app_length; cbn; subst o; lia).
  assert (Hch : forall o', In o' (chain c) -> o' < o) by exact HC.
  assert (Hnew : nth o (ovrs st2) [] = []) by (rewrite V2, app_nth2, Nat.sub_diag by (subst o; lia); reflexivity).
  assert (Hold : forall o', o' < o -> nth o' (ovrs st2) [] = nth o' (ovrs st) []) by (intros o' Ho'; rewrite V2; apply app_nth1; exact Ho').
  cinv H. rename st0 into st3. destruct x.
  assert (HOV : exists dxo, map fst dxo = overrides e (match ov with Some l => l | None => [] end) /\ OPx c o st2 st3 dxo).
  { destruct ov as [l|].
    - eapply overrides_iter; try eassumption. lia.
    - cret E. exists []. split; [reflexivity | apply OPx_nil; exact W2]. }
  clear E. destruct HOV as (dxo & Eos & (A1 & A2 & A3 & A4 & A5 & A6 & A7 & A8)).
  set (os := overrides e (match ov with Some l => l | None => [] end)) in *.
  rewrite Hnew in A6. cbn [app] in A6. rewrite Eos in A5, A6.
  cinv H. apply cmap_err_ok in E. rename st0 into st4. rename x into inc'.
  unfold compile_schema_with in E. cinv E. pose proof (Hfs _ _ Es) as [Dok Tok].
  apply (declared_agrees f) in E0; [|exact I | reflexivity | reflexivity | reflexivity | exact Dok]. destruct E0 as (-> & (ns & ds & ->) & HAi). cbn [with_decls] in *.
  set (inc := XInclude c f o ns ds) in *.
  assert (HL : exists l', file_contents s l' /\ contents_ok fs f (s_decls s) l' /\ ri inc l' st3 = fok (tt, st4) /\ inc' = inc).
  { destruct s as [sd [p|l']]; cbn [s_top s_decls] in *.
    - cbn [is_include inc] in E. destruct p; try (cbad E). cinv E. cret E. destruct x. exists l. split; [constructor|]. split; [apply all_contents; exact Tok|]. auto.
    - cinv E. cret E. destruct x. exists l'. split; [constructor|]. auto. }
  clear E. destruct HL as (l' & Fc & Cok & E & ->).
  assert (HT3 : tabs_in st3 c) by (eapply tabs_in_ext; eassumption).
  assert (HC3 : chain_in st3 inc).
  { intros o' [<-|Ho']; [lia|]. apply Hch in Ho'. lia. }
  apply (Hri inc (FEnv f (s_decls s) [])) in E; try assumption. destruct E as (dxi & Ei & (B1 & B2 & B3 & B4 & B5)).
  unfold check_overrides, inc in H. destruct (find _ (nth o (ovrs st4) [])) as [[? ?]|] eqn:Ef2; [cbad H|]. apply fok_inj in H. destruct H as [_ <-].
  assert (Hincl : incl (names_of os) (names_of (map fst dxi))).
  { intros n Hn. destruct B3 as (_ & _ & B3). destruct (B3 o ltac:(lia)) as [K1 K2].
    assert (Ht : assoc n (nth o (ovrs st4) []) = Some true).
    { apply all_true; [exact Ef2|]. rewrite K1, A6, map_map. cbn. rewrite map_id. exact Hn. }
    apply K2 in Ht. destruct Ht as [Ht|Ht]; [|exact Ht]. rewrite A6, assoc_false in Ht. destruct (in_dec _ _ _); discriminate Ht. }
  exists (dxo ++ keep (names_of os) dxi). split; [|split; [|split; [|split; [|split]]]].
  - intros ds'. rewrite map_app, Eos, keep_fst. split.
    + intros HE. inversion HE; subst. match goal with HR : resolve _ _ = Some ?g, HF : fs ?g = inl ?s' |- _ => assert (g = f) by congruence; subst g; assert (s' = s) by congruence; subst s' end.
      match goal with HF : file_contents s ?k |- _ => rewrite (contents_of_file _ _ _ Fc HF) in * end.
      match goal with HD : hands_down e _ _ |- _ => apply (default_iff c e _ HA) in HD; subst end.
      match goal with HX : Expand _ (FEnv _ _ _) _ _ |- _ => apply Ei in HX; subst end.
      match goal with HX : Expand _ _ [] _ |- _ => inversion HX; subst end. subst os os0. rewrite app_nil_r. reflexivity.
    + intros ->. rewrite <- (app_nil_r (filter _ _)). eapply Ex_include; [exact Ef | exact Es | exact Fc | apply (default_iff c e _ HA); reflexivity | apply Ei; reflexivity | exact Hincl | constructor].
  - exact B1.
  - change (owner inc) with (owner c) in *. eapply ext_trans; [apply same_refs_ext; exact R|]. eapply ext_trans; eassumption.
  - destruct B3 as (B30 & B31 & B32). split; [subst o; lia|]. split.
    + intros o' Ho' Hn. fold o in Ho'. rewrite B31; [|lia | intros [Hx|Hx]; [lia | contradiction]]. rewrite A4; [apply Hold; exact Ho' | lia | intros [Hx|Hx]; [lia | contradiction]].
    + intros o' Ho'. fold o in Ho'. destruct (B32 o' ltac:(lia)) as [K1 K2]. destruct (A5 o' ltac:(lia) ltac:(lia)) as [L1 L2]. rewrite K1, L1, Hold by exact Ho'. split; [reflexivity|].
      intros n Hn. apply K2 in Hn. unfold names_of at 1. rewrite !map_app. rewrite in_app_iff. destruct Hn as [Hn|Hn].
      * apply L2 in Hn. rewrite Hold in Hn by exact Ho'. destruct Hn as [Hn|Hn]; [left; exact Hn|]. right; left. rewrite Eos. exact Hn.
      * right. destruct (in_dec str_eq_dec n (names_of os)) as [Hi|Hi]; [left; rewrite Eos; exact Hi|]. right. rewrite keep_fst.
        apply in_map_iff in Hn. destruct Hn as (d & <- & Hd). apply in_map_iff. exists d. split; [reflexivity|]. apply filter_In. split; [exact Hd|]. unfold not_among. destruct (in_dec _ _ _); [contradiction | reflexivity].
  - intros fin Hf. apply Forall_app. split.
    + apply A7. eapply ext_trans; [|exact Hf]. eapply ext_mono; [|exact B2]. change (owner inc) with (owner c). apply owner_tabs, incl_refl.
    + pose proof (B4 fin Hf) as B4'. unfold TrL in *. change (tabs inc) with (tabs c) in B4'. rewrite Forall_forall in B4' |- *. intros p Hp. apply filter_In in Hp. apply B4', Hp.
  - intros n. specialize (A8 n). specialize (B5 n). change (owner inc) with (owner c) in *. rewrite (same_refs_content _ _ R) in A8.
    assert (Hb2 : blocked st2 c n = blocked st c n).
    { apply blocked_old. intros o' Ho'. apply Hold, Hch, Ho'. }
    assert (Hb3 : blocked st3 c n = blocked st c n).
    { rewrite <- Hb2. apply (blocked_keys c o); [exact Hch | lia | intros o' h1 h2; exact (proj1 (A5 o' h1 h2))]. }
    assert (Hb : blocked st3 inc n = (if in_dec str_eq_dec n (names_of os) then true else false) || blocked st c n).
    { unfold blocked at 1. cbn [chain inc existsb]. fold (blocked st3 c n). rewrite Hb3. f_equal. unfold has. rewrite A6, assoc_false. destruct (in_dec _ _ _); reflexivity. }
    rewrite Hb2 in A8. rewrite Hb in B5. destruct (blocked st c n).
    + rewrite orb_true_r in B5. rewrite merged_nil in *. injection A8 as ->. exact B5.
    + rewrite orb_false_r in B5. rewrite merged_app, A8. cbn [fbind fok rbind]. unfold merged in *. rewrite keep_hx. destruct (in_dec str_eq_dec n (names_of os)); exact B5.
Qed.
Lemma override_define n how p : P_pat p -> P_ovr (IDefine n how p).
Proof.
  intros Hp q f o e st st' Hok HG HA W HT Ho HC H. cbn [SchemaCompile.compile_override] in H. cinv H.
  apply (Hp _ e) in E; [|exact Hok | destruct (agrees_sub _ _ (agrees_overrides q e f o HA)) as (_ & _ & K & _); apply K | exact W | exact HT].
  destruct E as (A1 & A2 & A3 & A4). cbn [tabs] in A4. rename x into X. rename st0 into st1.
  cbn [define] in H. cinv H. unfold get_ovr in E. cfok E. destruct (assoc n (nth o (ovrs st1) [])) eqn:Ea; [cbad H|].
  cinv H. unfold insert_ovr in E. apply fok_inj in E. destruct E as [_ E]. 
  assert (R : same_refs st1 st0) by (rewrite <- E; split; reflexivity).
  assert (V : ovrs st0 = upd o (nth o (ovrs st1) [] ++ [(n, false)]) (ovrs st1)) by (rewrite <- E; reflexivity). clear E.
  destruct A3 as (A30 & A31 & A32).
  assert (Hch : forall o', In o' (chain q) -> o' <> o) by (intros o' Ho'; apply HC in Ho'; lia).
  assert (L0 : List.length (ovrs st0) = List.length (ovrs st1)) by (rewrite V; apply length_upd).
  apply define_ok in H; [|exact HG | eapply same_refs_wf; eassumption | eapply tabs_in_ext; [apply (same_refs_ext []); exact R | eapply tabs_in_ext; eassumption] | intros o' Ho'; apply HC in Ho'; lia].
  destruct H as (B1 & B2 & (B30 & B31 & B32) & B4).
  exists [(SDef n how e p, X)]. split; [reflexivity|]. split; [exact B1|]. split; [|split; [|split; [|split; [|split; [|split]]]]].
  - eapply ext_trans; [eapply ext_mono; [|exact A2]; intros ? []|]. eapply ext_trans; [apply same_refs_ext; exact R | exact B2].
  - lia.
  - intros o' H1 H2. rewrite B31; [|lia | intros K; apply H2; right; exact K]. rewrite V, nth_upd_other by (intros ->; apply H2; left; reflexivity). apply A31; [exact H1 | intros []].
  - intros o' H1 H2. destruct (B32 o' ltac:(lia)) as [K1 K2]. destruct (A32 o' H1) as [L1 L2]. rewrite V, nth_upd_other in K1 by lia. split; [congruence|].
    intros m Hm. apply K2 in Hm. destruct Hm as [Hm|Hm]; [|right; exact Hm]. rewrite V, nth_upd_other in Hm by lia. apply L2 in Hm. destruct Hm as [Hm|[]]. left; exact Hm.
  - rewrite B31; [|lia | intros K; exact (Hch _ K eq_refl)]. rewrite V, nth_upd_same by lia. rewrite A31 by (exact Ho || intros []). reflexivity.
  - intros fin Hf. constructor; [|constructor]. cbn. apply A4. eapply ext_trans; [apply same_refs_ext; exact R|]. eapply ext_trans; [|exact Hf]. eapply ext_mono; [|exact B2]. apply owner_tabs, incl_refl.
  - intros n'. specialize (B4 n'). rewrite (same_refs_content _ _ R) in B4.
    destruct A2 as (_ & _ & A2). rewrite (A2 (owner q) n' (owner_in _ _ HT) ltac:(intros [])) in B4.
    assert (Hb : blocked st0 q n' = blocked st q n').
    { apply blocked_old. intros o' Ho'. rewrite V, nth_upd_other by (intros ->; exact (Hch _ Ho' eq_refl)). apply A31; [apply HC in Ho'; lia | intros []]. }
    rewrite Hb in B4. destruct (blocked st q n'); [exact B4|]. unfold merged, hx_of. cbn [filter fst]. unfold is_named. cbn [d_name].
    destruct (str_eqb n n'); exact B4.
Qed.
Lemma grammar_PP c e l st t st1 st2 X st3 : wf st -> tabs_in st c -> new_table st = fok (t, st1) -> CP (XGrammar c t) e l st1 st2 ->
  take_start t st2 = fok (X, st3) -> PP c e (SGrammar l) st X st3.
Proof.
  intros W HT E0 E H. apply new_table_ok in E0; [|exact W]. destruct E0 as (A1 & A2 & A3 & -> & A4 & A5).
  set (t := List.length (tables st)) in *.
  destruct E as (dx & Ee & (B1 & B2 & B3 & B4 & B5)). change (owner (XGrammar c t)) with t in *. cbn [chain tabs] in *.
  apply take_start_ok in H; [|exact B1]. destruct H as (D1 & D2 & D3 & R & ER & -> & D4).
  assert (HF : ~ In t (tabs c)) by (intros K; apply HT in K; subst t; lia).
  split; [exact D1|]. split; [|split].
  - destruct A2 as (K1 & K2 & K3), B2 as (L1 & L2 & L3), D2 as (N1 & N2 & N3). split; [lia|]. split; [auto|].
    intros t' n Ht' _. assert (t' <> t) by (subst t; lia). rewrite N3, L3, K3; try lia; auto; intros [K|[]]; congruence.
  - eapply (ovr_step_trans [] [] []); [apply ovr_step_same; exact A3|]. destruct B3 as (K1 & K2 & K3). unfold ovr_step. rewrite D3. split; [exact K1|]. split; [exact K2|].
    intros o Ho. rewrite (K2 o Ho ltac:(intros [])). split; auto.
  - intros fin Hf. eapply Tr_grammar with (t := t) (dx := dx); [exact Ee | reflexivity | | |].
    + apply B4. eapply ext_trans; [eapply ext_mono; [|exact D2]; intros ? [<-|[]]; left; reflexivity|]. eapply ext_mono; [|exact Hf]. intros ? ?; right; assumption.
    + intros n. destruct Hf as (_ & _ & Hf). rewrite Hf; [|destruct B2, D2; lia | exact HF]. rewrite D4. destruct (str_eqb (lit "start") n); [left; reflexivity|]. right.
      rewrite <- (B5 n), A5. reflexivity.
    + rewrite <- ER, <- (B5 (lit "start")), A5. reflexivity.
Qed.
Lemma grammar_ok l : Forall P_con l -> P_pat (SGrammar l).
Proof.
  intros Hl c e st X st' Hok HA W HT H. cbn [SchemaCompile.compile_pattern] in H.
  cinv H. unfold new_grammar in E. cinv E. cret E. pose proof E0 as E0'. apply new_table_ok in E0; [|exact W]. destruct E0 as (A1 & A2 & A3 & Ht & A4 & A5).
  rename st0 into st1. cinv H. destruct x. rename st0 into st2.
  destruct (agrees_sub c e HA) as (_ & _ & _ & HAg). cbn [table_of] in H.
  eapply (contents_iter l Hl (XGrammar c x0) e) in E; [|apply all_contents; exact Hok | exact I | apply HAg | exact A1 | | intros o []].
  2:{ intros t' [<-|Ht']; [exact A4 | apply HT in Ht'; destruct A2; lia]. }
  eapply grammar_PP; eassumption.
Qed.
(** [external]: the pattern of another file *)
Lemma external_iff c e href f s : agrees c e -> resolve (fe_path e) (lit_value href) = Some f -> fs f = inl s ->
  forall e1 p1, External fs e href None e1 p1 <-> e1 = FEnv f (s_decls s) [] /\ p1 = top_pattern s.
Proof.
  intros HA Ef Es e1 p1. split.
  - intros H. inversion H as [f' s' u Hr Hs Hu E1 E2]; subst. rewrite Ef in Hr. injection Hr as <-. rewrite Es in Hs. injection Hs as <-.
    apply (default_iff c e _ HA) in Hu. subst u. auto.
  - intros [-> ->]. econstructor; [exact Ef | exact Es | apply (default_iff c e _ HA); reflexivity].
Qed.
Lemma external_agrees c f o ds : decls_ok ds -> (forall p l, ~ In (DDatatypes p l) ds) -> agrees (XInclude c f o initial_ns initial_dts) (FEnv f ds []).
Proof.
  intros Dok Hno. split; [exists f; split; [reflexivity | intros h; reflexivity]|]. split; [exact Dok|]. split; [reflexivity|]. split; [|split].
  - intros p u H. destruct Dok as [D1 _]. destruct (D1 _ _ H) as (l & -> & _). discriminate.
  - intros p u H. cbn [namespace_uri] in H. unfold initial_ns in H. rewrite assoc_one in H. destruct (str_eqb (lit "xml") p) eqn:Es; [|discriminate H].
    apply str_eqb_eq in Es. subst p. injection H as <-. constructor.
  - intros p u [|p' l Hi]; [|exfalso; exact (Hno _ _ Hi)]. cbn [datatype_uri]. unfold initial_dts. rewrite assoc_one, str_eqb_refl. reflexivity.
Qed.
Lemma external_ok h i : P_pat (SExternal h i).
Proof.
  intros c e st X st' [-> Hok] HA W HT H. cbn [SchemaCompile.compile_pattern] in H.
  cinv H. apply (path_from_ok c e) in E; [|exact HA]. destruct E as [-> Ef]. rename x into f.
  cinv H. apply cmap_err_ok in E. apply get_schema_ok in E. destruct E as (Es & R1 & V1). rename x into s. rename st0 into st1.
  cinv H. apply new_include_ok in E. destruct E as (-> & R2 & V2). rename st0 into st2.
  assert (R : same_refs st st2) by (destruct R1, R2; split; congruence).
  assert (W2 : wf st2) by (eapply same_refs_wf; eassumption).
  assert (HT2 : tabs_in st2 c) by (eapply tabs_in_ext; [apply (same_refs_ext []); exact R | exact HT]).
  specialize (Hok f s Ef Es). destruct (Hfs _ _ Es) as [Dok Tok].
  assert (HO : ovr_step [] [] st st2).
  { unfold ovr_step. rewrite V2, V1, app_length. split; [lia|]. split; [intros o Ho _; apply app_nth1; exact Ho|].
    intros o Ho. rewrite app_nth1 by exact Ho. auto. }
  assert (HP : PP c (FEnv f (s_decls s) []) (top_pattern s) st2 X st').
  { destruct s as [sd [q|l]]; cbn [s_top s_decls top_pattern] in *.
    - apply cmap_err_ok in H. apply (Hrp _ (FEnv f sd [])) in H; [exact H | exact Tok | apply external_agrees; assumption | exact W2 | exact HT2].
    - destruct Hok as [-> HS]. cinv H. unfold new_grammar in E. cinv E. cret E. pose proof E0 as E0'. apply new_table_ok in E0; [|exact W2]. destruct E0 as (A1 & A2 & A3 & Ht & A4 & A5).
      cinv H. destruct x. cbn [table_of] in H. cinv H. unfold undefined_in in E0. apply fok_inj in E0. destruct E0 as [_ <-]. destruct x; [cbad H|].
      eapply grammar_PP; [exact W2 | exact HT2 | exact E0' | | exact H]. apply (Hri (XGrammar c x0)).
      + exact Tok.
      + exact I.
      + destruct HA as ((f0 & F1 & F2) & G1 & G2 & G3 & G4 & G5). split; [exists f0; split; [exact F1 | intros h'; rewrite F2; apply HS]|].
        split; [exact G1|]. split; [reflexivity|]. split; [exact G3|]. split; [exact G4 | exact G5].
      + exact A1.
      + intros t' [<-|Ht']; [exact A4 | apply HT2 in Ht'; destruct A2; lia].
      + intros o [].
      + exact E. }
  destruct HP as (P1 & P2 & P3 & P4). split; [exact P1|]. split; [eapply ext_trans; [apply same_refs_ext; exact R | exact P2]|].
  split; [eapply (ovr_step_trans [] [] []); eassumption|]. intros fin Hf. eapply Tr_external; [|apply P4; exact Hf]. apply (external_iff c); assumption.
Qed.
Lemma main_ok : (forall p, P_pat p) /\ (forall g, P_con g) /\ (forall i, P_ovr i).
Proof.
  assert (H_el : forall nc p, P_pat p -> P_pat (SElement nc p)).
  { intros nc p IH c e st X st' Hok HA W HT H. cbn [SchemaCompile.compile_pattern] in H. cinv H. apply (nameclass_ok e) in E; [|exact HA]. destruct E as [-> En].
    cinv H. unfold new_element in E. destruct (parent_attribute c); [cbad E|]. cret E. cinv H. cret H.
    apply (IH _ e) in E; [|exact Hok | apply agrees_sub; exact HA | exact W | exact HT]. apply (PP_map c e p (SElement nc p)) with (X := x0); [exact E|]. intros fin HTr. constructor; assumption. }
  assert (H_at : forall nc p, P_pat p -> P_pat (SAttribute nc p)).
  { intros nc p IH c e st X st' Hok HA W HT H. cbn [SchemaCompile.compile_pattern] in H. cinv H. apply (nameclass_ok e) in E; [|exact HA]. destruct E as [-> En].
    cinv H. cret H.
    apply (IH _ e) in E; [|exact Hok | apply agrees_sub; exact HA | exact W | exact HT]. apply (PP_map c e p (SAttribute nc p)) with (X := x0); [exact E|]. intros fin HTr. constructor; assumption. }
  assert (H_li : forall p, P_pat p -> P_pat (SList p)).
  { intros p IH c e st X st' Hok HA W HT H. cbn [SchemaCompile.compile_pattern] in H. cinv H. cret H. apply (IH _ e) in E; try assumption. eapply PP_map; [exact E|]. intros; constructor; assumption. }
  assert (H_mi : forall p, P_pat p -> P_pat (SMixed p)).
  { intros p IH c e st X st' Hok HA W HT H. cbn [SchemaCompile.compile_pattern] in H. cinv H. cret H. apply (IH _ e) in E; try assumption. eapply PP_map; [exact E|]. intros; constructor; assumption. }
  assert (H_op : forall p, P_pat p -> P_pat (SOptional p)).
  { intros p IH c e st X st' Hok HA W HT H. cbn [SchemaCompile.compile_pattern] in H. cinv H. cret H. apply (IH _ e) in E; try assumption. eapply PP_map; [exact E|]. intros; constructor; assumption. }
  assert (H_ze : forall p, P_pat p -> P_pat (SZeroOrMore p)).
  { intros p IH c e st X st' Hok HA W HT H. cbn [SchemaCompile.compile_pattern] in H. cinv H. cret H. apply (IH _ e) in E; try assumption. eapply PP_map; [exact E|]. intros; constructor; assumption. }
  assert (H_on : forall p, P_pat p -> P_pat (SOneOrMore p)).
  { intros p IH c e st X st' Hok HA W HT H. cbn [SchemaCompile.compile_pattern] in H. cinv H. cret H. apply (IH _ e) in E; try assumption. eapply PP_map; [exact E|]. intros; constructor; assumption. }
  assert (H_gp : forall p, P_pat p -> P_pat (SGroup p)).
  { intros p IH c e st X st' Hok HA W HT H. cbn [SchemaCompile.compile_pattern] in H. apply (IH _ e) in H; try assumption. eapply PP_map; [exact H|]. intros; constructor; assumption. }
  assert (H_lp : forall a b, P_pat a -> P_pat b -> P_pat (SListPair a b)).
  { intros a b IHa IHb c e st X st' [Hk1 Hk2] HA W HT H. cbn [SchemaCompile.compile_pattern] in H. cinv H. cinv H. cret H. apply (IHa _ e) in E; try assumption. pose proof (PP_state _ _ _ _ _ _ E) as (K1 & K2 & K3).
    apply (IHb _ e) in E0; try assumption; [|eapply tabs_in_ext; eassumption]. eapply PP_pair; [exact E | exact E0|]. intros; constructor; assumption. }
  assert (H_ip : forall a b, P_pat a -> P_pat b -> P_pat (SInterleavePair a b)).
  { intros a b IHa IHb c e st X st' [Hk1 Hk2] HA W HT H. cbn [SchemaCompile.compile_pattern] in H. cinv H. cinv H. cret H. apply (IHa _ e) in E; try assumption. pose proof (PP_state _ _ _ _ _ _ E) as (K1 & K2 & K3).
    apply (IHb _ e) in E0; try assumption; [|eapply tabs_in_ext; eassumption]. eapply PP_pair; [exact E | exact E0|]. intros; constructor; assumption. }
  assert (H_cp : forall a b, P_pat a -> P_pat b -> P_pat (SChoicePair a b)).
  { intros a b IHa IHb c e st X st' [Hk1 Hk2] HA W HT H. cbn [SchemaCompile.compile_pattern] in H. cinv H. cinv H. cret H. apply (IHa _ e) in E; try assumption. pose proof (PP_state _ _ _ _ _ _ E) as (K1 & K2 & K3).
    apply (IHb _ e) in E0; try assumption; [|eapply tabs_in_ext; eassumption]. eapply PP_pair; [exact E | exact E0|]. intros; constructor; assumption. }
  assert (H_id : forall i, P_pat (SIdent i)).
  { intros i c e st X st' Hok HA W HT H. cbn [SchemaCompile.compile_pattern] in H. cinv H. cret H. apply acquire_ok in E; try assumption. destruct E as (K1 & K2 & K3 & K4).
    split; [exact K1|]. split; [exact K2|]. split; [apply ovr_step_same; exact K3|]. intros fin (_ & Hf & _). rewrite tabs_owner. constructor. apply Hf; exact K4. }
  assert (H_pa : forall i, P_pat (SParent i)).
  { intros i c e st X st' Hok HA W HT H. cbn [SchemaCompile.compile_pattern] in H. cinv H. cret H. apply acquire_parent_ok in E; try assumption. destruct E as (K1 & K2 & K3 & t & t1 & ts & K4 & K5).
    split; [exact K1|]. split; [exact K2|]. split; [apply ovr_step_same; exact K3|]. intros fin (_ & Hf & _). rewrite K4. constructor. apply Hf; exact K5. }
  assert (H_em : P_pat SEmpty).
  { intros c e st X st' Hok HA W HT H. cbn [SchemaCompile.compile_pattern] in H. cret H. apply PP_pure; [exact W|]. intros; constructor. }
  assert (H_te : P_pat SText).
  { intros c e st X st' Hok HA W HT H. cbn [SchemaCompile.compile_pattern] in H. cret H. apply PP_pure; [exact W|]. intros; constructor. }
  assert (H_na : P_pat SNotAllowed).
  { intros c e st X st' Hok HA W HT H. cbn [SchemaCompile.compile_pattern] in H. cret H. apply PP_pure; [exact W|]. intros; constructor. }
  assert (H_va : forall n v, P_pat (SValue n v)).
  { intros n v c e st X st' Hok HA W HT H. cbn [SchemaCompile.compile_pattern] in H. cinv H. apply (dtname_ok' c e) in E; [|exact HA | destruct n; [exact Hok | exact I]]. destruct E as [-> En].
    cinv H. cret H. apply lift_dt_ok in E. destruct E as [-> E]. apply PP_pure; [exact W|]. intros fin. econstructor; [exact En | exact E]. }
  assert (H_da : forall n ps ex, (match ex with Some e => P_pat e | None => True end) -> P_pat (SData n ps ex)).
  { intros n ps ex IH c e st X st' [Hk1 Hk2] HA W HT H. cbn [SchemaCompile.compile_pattern] in H. cinv H. apply (dtname_ok' c e) in E; [|exact HA | exact Hk1]. destruct E as [-> En].
    cinv H. apply lift_dt_ok in E. destruct E as [-> E]. rewrite values_eq in E. cinv H. cret H. destruct ex as [ex|].
    - cinv E0. cret E0. apply (IH _ e) in E1; try assumption. eapply PP_map; [exact E1|]. intros; econstructor; eassumption.
    - cret E0. apply PP_pure; [exact W|]. intros fin. econstructor; eassumption. }
  assert (H_gd : forall n h p, P_pat p -> P_con (GDefine n h p)).
  { intros n h p IH c e st st' Hok HG HA W HT HC H. cbn [SchemaCompile.compile_content] in H. cinv H.
    apply (IH _ e) in E; [|exact Hok | apply agrees_sub; exact HA | exact W | exact HT]. exists [(SDef n h e p, x)]. split.
    - intros ds. split; [intros K; inversion K; subst; match goal with K' : Expand _ _ [] _ |- _ => inversion K'; subst end; reflexivity | intros ->; repeat constructor].
    - eapply define_CPx; eassumption. }
  assert (H_gv : forall l, Forall P_con l -> P_con (GDiv l)).
  { intros l Hl c e st st' Hok HG HA W HT HC H. cbn [SchemaCompile.compile_content] in H. eapply (contents_iter l Hl c e) in H; try assumption; [|apply all_contents; exact Hok].
    destruct H as (dx & E1 & K). exists dx. split; [|exact K]. intros ds. split.
    - intros HE. inversion HE; subst. match goal with K' : Expand _ _ [] _ |- _ => inversion K'; subst end. rewrite app_nil_r. apply E1. assumption.
    - intros ->. rewrite <- (app_nil_r (map fst dx)). constructor; [apply E1; reflexivity | constructor]. }
  assert (H_ga : forall a, P_con (GAnnotation a)).
  { intros a c e st st' Hok HG HA W HT HC H. cbn [SchemaCompile.compile_content] in H. cret H. exists []. split; [|apply CPx_nil; exact W].
    intros ds. split; [intros K; inversion K; subst; match goal with K' : Expand _ _ [] _ |- _ => inversion K'; subst end; reflexivity | intros ->; repeat constructor]. }
  assert (H_iv : forall l, Forall P_ovr l -> P_ovr (IDiv l)).
  { intros l _ q f o e st st' _ _ _ _ _ _ _ H. cbn [SchemaCompile.compile_override] in H. cbad H. }
  assert (H_ia : forall a, P_ovr (IAnnotation a)).
  { intros a q f o e st st' _ _ _ W _ _ _ H. cbn [SchemaCompile.compile_override] in H. cret H. exists []. split; [reflexivity | apply OPx_nil; exact W]. }
  split; [|split]; [apply (spat_ind' P_pat P_con P_ovr) | apply (gcontent_ind' P_pat P_con P_ovr) | apply (icontent_ind' P_pat P_con P_ovr)];
    auto using grammar_ok, external_ok, include_ok, override_define.
Qed.
End Rec.

Lemma nested_ok d :
  (forall c e l st st', contents_ok fs (fe_path e) (fe_decls e) l -> gctx c -> agrees c e -> wf st -> tabs_in st c -> chain_in st c ->
    snd (nested O C fs d) c l st = fok (tt, st') -> CP c e l st st') /\
  (forall c e p st X st', pat_ok fs (fe_path e) (fe_decls e) p -> agrees c e -> wf st -> tabs_in st c ->
    fst (nested O C fs d) c p st = fok (X, st') -> PP c e p st X st').
Proof.
  induction d as [|d [IH1 IH2]].
  - split; intros *; intros; cbn in *; match goal with H : cfuel _ = _ |- _ => cbad H end.
  - cbn [nested]. destruct (nested O C fs d) as [rp ri] eqn:En. cbn [fst snd] in *. split.
    + intros c e l st st' Hok HG HA W HT HC H. unfold compile_contents in H.
      eapply (contents_iter rp ri); try eassumption. apply Forall_forall. intros g _. apply (proj1 (proj2 (main_ok rp ri IH1 IH2))).
    + intros c e p st X st' Hok HA W HT H. eapply (proj1 (main_ok rp ri IH1 IH2)); eassumption.
Qed.

(** ** [check] *)
Definition check_all (f : list nat -> mpat -> fres rerror (list nat)) : list nat -> list mpat -> fres rerror (list nat) :=
  fix all (seen : list nat) (l : list mpat) {struct l} : fres rerror (list nat) :=
    match l with [] => fok seen | x :: l' => fbind (f seen x) (fun seen' => all seen' l') end.
Lemma check_eq cs d seen p : check_refs cs d seen p =
  match p with
  | MChoice l | MInterleave l | MGroup l => check_all (check_refs cs d) seen l
  | MMixed q | MOptional q | MZeroOrMore q | MOneOrMore q | MAttribute _ q | MElement _ q | MList q => check_refs cs d seen q
  | MEmpty | MText | MNotAllowed | MValue _ => fok seen
  | MRef r =>
      if in_dec Nat.eq_dec r seen then fok seen
      else match nth r cs ([], None) with
           | (_, Some rule) => match d with 0 => OutOfFuel | S d => check_refs cs d (r :: seen) (rule_pattern rule) end
           | (n, None) => ferr (EUndefinedReference n)
           end
  | MData _ (Some e) => check_refs cs d seen e
  | MData _ None => fok seen
  end.
Proof. destruct d; destruct p; reflexivity. Qed.
Definition closes (cs : list (str * option drule)) (seen : list nat) (rs : list nat) (seen' : list nat) : Prop :=
  incl seen seen' /\ incl rs seen' /\
  forall r, In r seen' -> In r seen \/ exists R, snd (nth r cs ([], None)) = Some R /\ incl (mrefs (rule_pattern R)) seen'.
Lemma closes_nil cs seen : closes cs seen [] seen.
Proof. split; [apply incl_refl|]. split; [intros ? []|]. auto. Qed.
Lemma closes_app cs s0 s1 s2 r1 r2 : closes cs s0 r1 s1 -> closes cs s1 r2 s2 -> closes cs s0 (r1 ++ r2) s2.
Proof.
  intros (A1 & A2 & A3) (B1 & B2 & B3). split; [eapply incl_tran; eassumption|]. split; [apply incl_app; [eapply incl_tran; eassumption | exact B2]|].
  intros r Hr. apply B3 in Hr. destruct Hr as [Hr|Hr]; [|right; exact Hr]. apply A3 in Hr. destruct Hr as [Hr|(R & K1 & K2)]; [left; exact Hr|].
  right. exists R. split; [exact K1 | eapply incl_tran; eassumption].
Qed.
Lemma check_all_ok cs f l : Forall (fun p => forall seen seen', f seen p = fok seen' -> closes cs seen (mrefs p) seen') l ->
  forall seen seen', check_all f seen l = fok seen' -> closes cs seen (flat_map mrefs l) seen'.
Proof.
  induction 1 as [|x l Hx Hl IH]; intros seen seen' H; cbn in H.
  - injection H as <-. apply closes_nil.
  - destruct (f seen x) as [[s1|?]|?|] eqn:E1; try discriminate H. cbn in H. cbn [flat_map]. eapply closes_app; [apply Hx; exact E1 | apply IH; exact H].
Qed.
Lemma check_refs_ok cs d : forall p seen seen', check_refs cs d seen p = fok seen' -> closes cs seen (mrefs p) seen'.
Proof.
  induction d as [d IH] using lt_wf_ind.
  induction p as [l IHl|l IHl|l IHl|p IHp| | | |p IHp|p IHp|p IHp|nc p IHp|nc p IHp|r|v|dt ex IHe|p IHp] using mpat_ind'; intros seen seen' H; rewrite check_eq in H; cbn [mrefs];
    try (injection H as <-; apply closes_nil); try (apply IHp; exact H); try (eapply check_all_ok; eassumption).
  - destruct (in_dec Nat.eq_dec r seen) as [Hi|Hi].
    + injection H as <-. split; [apply incl_refl|]. split; [intros ? [<-|[]]; exact Hi|]. auto.
    + destruct (nth r cs ([], None)) as [nm [R|]] eqn:En; [|discriminate H]. destruct d as [|d]; [discriminate H|]. apply (IH d ltac:(lia)) in H. destruct H as (A1 & A2 & A3).
      split; [intros x Hx; apply A1; right; exact Hx|]. split; [intros x [<-|[]]; apply A1; left; reflexivity|].
      intros x Hx. apply A3 in Hx. destruct Hx as [[<-|Hx]|Hx]; [|left; exact Hx | right; exact Hx]. right. exists R. rewrite En. auto.
  - destruct ex as [e|]; [eapply IHe; [reflexivity | exact H] | injection H as <-; apply closes_nil].
Qed.

(** ** The compiled schema *)
Lemma compile_facts d name r st : compile_grammar O C fs d name = fok (r, st) ->
  exists dx seen, (forall g', file_grammar fs name g' <-> g' = map fst dx) /\
    look st 0 (lit "start") = Some r /\ wf st /\
    Holds fs O C st [map fst dx] [0] /\
    (forall n, merged n None dx = fok (content st 0 n)) /\
    (forall n x, look st 0 n = Some x -> content st 0 n <> None) /\
    In r seen /\ (forall x, In x seen -> exists R, snd (nth x (cells st) ([], None)) = Some R /\ incl (mrefs (rule_pattern R)) seen).
Proof.
  intros H. unfold compile_grammar in H. cinv H. apply get_schema_ok in E. destruct E as (Es & R0 & V0). rename x into s.
  cinv H. unfold new_root in E. cinv E. cret E. rename st1 into st1'.
  assert (W0 : wf empty_cst) by (split; intros t n r'; unfold look; cbn; destruct t; discriminate).
  pose proof (same_refs_wf _ _ R0 W0) as W1. apply new_table_ok in E0; [|exact W1]. destruct E0 as (A1 & A2 & A3 & -> & A4 & A5).
  destruct R0 as [_ R0]. cbn [tables empty_cst] in R0. rewrite R0 in *. cbn [List.length] in *. clear W0 W1 A2 R0.
  destruct (nested O C fs d) as [rp ri] eqn:En. clear V0 A3 st0. cinv H. rename x into c'. rename st0 into st2.
  destruct (nested_ok d) as [Hri Hrp]. rewrite En in Hri, Hrp. cbn [fst snd] in Hri, Hrp.
  destruct (Hfs _ _ Es) as [Dok Tok].
  unfold compile_schema_with in E. cinv E. apply (declared_agrees name) in E0; [|exact I | reflexivity | reflexivity | reflexivity | exact Dok].
  destruct E0 as (-> & (ns & ds & ->) & HA). cbn [with_decls] in *. set (c := XRoot name 0 ns ds) in *.
  assert (HT : tabs_in st1' c) by (intros t [<-|[]]; exact A4).
  assert (HG : exists g dx, (forall g', file_grammar fs name g' <-> g' = g) /\ g = map fst dx /\ CPx c st1' st2 dx /\ c' = c).
  { destruct s as [sd [p|l]]; cbn [s_top s_decls] in *.
    - cbn [is_include c] in E. cinv E. cinv E. apply cret_ok in E. destruct E as [<- <-]. destruct x0.
      apply (proj1 (main_ok rp ri Hri Hrp) p c (FEnv name sd [])) in E0; try assumption.
      exists [SDef (lit "start") MAssign (FEnv name sd []) p], [(SDef (lit "start") MAssign (FEnv name sd []) p, x)]. split; [|split; [reflexivity|split; [|reflexivity]]].
      + intros g'. split; [intros K; inversion K; congruence | intros ->; apply Fg_pattern; exact Es].
      + eapply define_CPx; [exact I | exact A1 | exact HT | intros o [] | exact E0 | eassumption].
    - cinv E. apply cret_ok in E. destruct E as [<- <-]. destruct x. unfold compile_contents in E0.
      eapply (contents_iter rp ri l ltac:(apply Forall_forall; intros g _; apply (proj1 (proj2 (main_ok rp ri Hri Hrp)))) c (FEnv name sd [])) in E0; try assumption; [|exact I | intros o []].
      destruct E0 as (dx & Ee & K). exists (map fst dx), dx. split; [|auto]. intros g'. split.
      + intros Hg. inversion Hg; [|congruence]. apply Ee. congruence.
      + intros ->. eapply Fg_grammar; [exact Es | apply Ee; reflexivity]. }
  clear E. destruct HG as (g & dx & Hg & -> & (B1 & B2 & B3 & B4 & B5) & ->). exists dx.
  cinv H. unfold undefined_in in E. apply fok_inj in E. destruct E as [Eu <-]. destruct x; [cbad H|].
  cinv H. unfold get_ref_in in E. cfok E. cbn [table_of c] in *. fold (look st2 0 (lit "start")) in H. destruct (look st2 0 (lit "start")) as [r0|] eqn:El; [|cbad H].
  destruct (nth r0 (cells st2) ([], None)) as [nm [R|]] eqn:Er; [|discriminate H].
  destruct (check_refs (cells st2) _ [] (rule_pattern R)) as [[seen|?]|?|] eqn:Ec; try discriminate H.
  cbn [fbind rbind] in H. apply fok_inj in H. destruct H as [<- <-]. exists (r0 :: seen). split; [exact Hg|]. split; [exact El|]. split; [exact B1|].
  apply check_refs_ok in Ec. destruct Ec as (_ & C2 & C3).
  assert (B5' : forall n, merged n None dx = fok (content st2 0 n)).
  { intros n. specialize (B5 n). change (owner c) with 0 in B5. rewrite A5 in B5. exact B5. }
  split; [|split; [exact B5'|split; [|split; [left; reflexivity|]]]].
  - econstructor; [constructor | reflexivity | apply (B4 st2); apply ext_refl|]. intros n. right. apply B5'.
  - intros n x Hx. unfold content. rewrite Hx. destruct (find _ _) eqn:Ef; [discriminate Eu|]. unfold look in Hx. intros K.
    assert (Hin : In (n, x) (nth 0 (tables st2) [])).
    { clear - Hx. induction (nth 0 (tables st2) []) as [|[k v] l IH]; cbn in Hx; [discriminate|]. unfold str_eqb in Hx. destruct (str_eq_dec k n) as [->|]; [injection Hx as ->; left; reflexivity | right; auto]. }
    apply (find_none _ _ Ef) in Hin. cbn in Hin. rewrite K in Hin. discriminate Hin.
  - intros x [->|Hx].
    + exists R. rewrite Er. split; [reflexivity|]. intros y Hy. right. apply C2; exact Hy.
    + apply C3 in Hx. destruct Hx as [[]|(R' & K1 & K2)]. exists R'. split; [exact K1|]. intros y Hy. right. apply K2; exact Hy.
Qed.
Theorem compile_correct d name r st : compile_grammar O C fs d name = fok (r, st) ->
  exists g, (forall g', file_grammar fs name g' <-> g' = g) /\
    look st 0 (lit "start") = Some r /\
    (forall w3 a m, Spec.M O (cell_defs st) w3 a m (MRef r) <-> SN fs O C w3 [g] a m (lit "start")).
Proof.
  intros H. apply compile_facts in H. destruct H as (dx & seen & Hg & El & [W _] & Ho & _ & _ & K1 & K2). exists (map fst dx). split; [exact Hg|]. split; [exact El|].
  intros w3 a m. apply (name_equiv fs O C st (fun x => In x seen)) with (t := 0) (ts := []); try assumption.
Qed.
End Main.
