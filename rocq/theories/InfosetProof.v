(** * InfosetProof: in scope, the code reads a document as XML prescribes. *)
From Coq Require Import String.
From Verif Require Import Base Datatype Store Deriv Events Lang Doc DocProof Infoset.
Local Open Scope nat_scope.

(** ** lookups *)
Lemma lookup_str_In k v l : lookup_str k l = Some v -> In (k, v) l.
Proof.
  induction l as [|[k' v'] l IH]; cbn; [discriminate|]. destruct (str_eqb k' k) eqn:E; [|auto].
  apply str_eqb_eq in E; subst. intros H; injection H as <-; auto.
Qed.
Lemma lookup_str_ex k v l : In (k, v) l -> exists v', lookup_str k l = Some v'.
Proof.
  induction l as [|[k' v'] l IH]; cbn; [intros []|]. intros [H|H].
  - injection H as -> ->. rewrite str_eqb_refl; eauto.
  - destruct (str_eqb k' k); [eauto | auto].
Qed.
Lemma first_binding_In k v l : first_binding k l = Some v -> In (k, v) l.
Proof.
  induction l as [|[k' v'] l IH]; cbn; [discriminate|]. destruct (str_eqb k k') eqn:E; [|auto].
  apply str_eqb_eq in E; subst. intros H; injection H as <-; auto.
Qed.
Lemma nodup_fun (k v v' : str) l : NoDup (map fst l) -> In (k, v) l -> In (k, v') l -> v = v'.
Proof.
  induction l as [|[k0 v0] l IH]; cbn; intros H; [intros []|]. inversion H as [|? ? Hn Hd]; subst.
  intros [E1|H1] [E2|H2].
  - congruence.
  - injection E1 as -> ->. destruct Hn. change k with (fst (k, v')). apply in_map; exact H2.
  - injection E2 as -> ->. destruct Hn. change k with (fst (k, v)). apply in_map; exact H1.
  - auto.
Qed.
Lemma lookup_first k v l l' : NoDup (map fst l) -> (forall x, In x l -> In x l') -> (forall x, In x l' -> In x l) ->
  first_binding k l = Some v -> lookup_str k l' = Some v.
Proof.
  intros HN H1 H2 H. apply first_binding_In in H. destruct (lookup_str_ex k v l' (H1 _ H)) as [v' Hv']. rewrite Hv'.
  apply lookup_str_In in Hv'. f_equal. eapply nodup_fun; [exact HN | apply H2; exact Hv' | exact H].
Qed.
Lemma ents_after_In ts : forall e x, In x (ents_after e ts) <-> In x (declared ts) \/ In x e.
Proof.
  induction ts as [|t ts IH]; intros e x; [cbn; tauto|].
  destruct t as [| | | | | |n [v|]| | | | |]; cbn; try apply IH. rewrite IH. cbn. tauto.
Qed.
Lemma initial_predefined x : In x initial_entities <-> In x predefined.
Proof. cbn. tauto. Qed.

(** ** references *)
Lemma utf8_len_app a b : utf8_len (a ++ b) = utf8_len a + utf8_len b.
Proof. induction a as [|c a IH]; cbn; [reflexivity | rewrite IH; lia]. Qed.
Lemma utf8_len_rev a : utf8_len (rev a) = utf8_len a.
Proof. induction a as [|c a IH]; cbn; [reflexivity|]. rewrite utf8_len_app, IH; cbn; lia. Qed.
Lemma utf8_width_pos c : 1 <= utf8_width c.
Proof. unfold utf8_width. destruct (c <? 128)%N, (c <? 2048)%N, (c <? 65536)%N; lia. Qed.
Lemma utf8_len_nil s : utf8_len s = 0 -> s = [].
Proof. destruct s as [|c s]; [reflexivity|]. cbn. pose proof (utf8_width_pos c). lia. Qed.

Definition ref_item (pos off : nat) (text : str) : txt + verror :=
  match text with
  | h :: t => if (h =? 35)%N then numeric_entity off t else inl (TxEntity (off + pos) text)
  | [] => inl (TxEntity (off + pos) text)
  end.
Lemma scan_ref pos off w : ~ In 59%N w -> forall cur r,
  parse_entities pos off true cur (w ++ 59%N :: r) =
  ref_item pos off (rev cur ++ w) :: parse_entities pos (off + utf8_len (rev cur ++ w) + 1) false [] r.
Proof.
  induction w as [|c w IH]; intros Hn cur r; cbn [app parse_entities].
  - rewrite N.eqb_refl, app_nil_r. reflexivity.
  - destruct (N.eqb_spec c 59) as [->|Hc]; [destruct Hn; left; reflexivity|].
    rewrite IH by (intros H; apply Hn; right; exact H). cbn [rev]. rewrite <- app_assoc. reflexivity.
Qed.
Lemma parse_amp pos off cur rest : parse_entities pos off false cur (38%N :: rest) =
  inl (TxText (off + pos) (rev cur)) :: parse_entities pos (off + utf8_len (rev cur) + 1) true [] rest.
Proof. reflexivity. Qed.
Lemma dec_digits_val ds : Forall dec_digit ds -> forall acc,
  digits_val 10 acc ds = Some (fold_left (fun n c => n * 10 + (c - 48))%N ds acc).
Proof.
  induction 1 as [|c ds Hc _ IH]; intros acc; cbn [digits_val fold_left]; [reflexivity|]. unfold dec_digit in Hc.
  assert (E : digit_val 10 c = Some (c - 48)%N).
  { unfold digit_val. replace (48 <=? c)%N with true by (symmetry; apply N.leb_le; lia). replace (c <=? 57)%N with true by (symmetry; apply N.leb_le; lia).
    cbn [andb]. replace (c - 48 <? 10)%N with true by (symmetry; apply N.ltb_lt; lia). reflexivity. }
  rewrite E; apply IH.
Qed.
Lemma hex_digits_val ds : Forall hex_digit ds -> forall acc,
  digits_val 16 acc ds = Some (fold_left (fun n c => n * 16 + hex_value c)%N ds acc).
Proof.
  induction 1 as [|c ds Hc _ IH]; intros acc; cbn [digits_val fold_left]; [reflexivity|]. unfold hex_digit in Hc.
  assert (E : digit_val 16 c = Some (hex_value c)).
  { unfold digit_val, hex_value.
    destruct (N.leb_spec 48 c); [|lia]. destruct (N.leb_spec c 57); cbn [andb].
    - replace (c - 48 <? 16)%N with true by (symmetry; apply N.ltb_lt; lia). reflexivity.
    - destruct (N.leb_spec 97 c); cbn [andb].
      + replace (c <=? 122)%N with true by (symmetry; apply N.leb_le; lia). replace (c <=? 70)%N with false by (symmetry; apply N.leb_gt; lia).
        replace (c - 87 <? 16)%N with true by (symmetry; apply N.ltb_lt; lia). reflexivity.
      + destruct (N.leb_spec 65 c); [|lia]. cbn [andb]. replace (c <=? 90)%N with true by (symmetry; apply N.leb_le; lia).
        replace (c <=? 70)%N with true by (symmetry; apply N.leb_le; lia).
        replace (c - 55 <? 16)%N with true by (symmetry; apply N.ltb_lt; lia). reflexivity. }
  rewrite E; apply IH.
Qed.
Lemma xml_char_from n : xml_char n -> (n <? 4294967296)%N = true /\ char_from_u32 n = Some n.
Proof.
  intros H. unfold xml_char in H. split; [apply N.ltb_lt; lia|]. unfold char_from_u32.
  destruct (N.ltb_spec n 55296); [reflexivity|]. cbn [orb]. destruct (N.leb_spec 57344 n); [|lia]. destruct (N.ltb_spec n 1114112); [reflexivity | lia].
Qed.
Lemma numeric_dec off d ds : Forall dec_digit (d :: ds) -> xml_char (dec_number (d :: ds)) ->
  numeric_entity off (d :: ds) = inl (TxChar off (dec_number (d :: ds))).
Proof.
  intros Hd Hx. unfold numeric_entity. inversion Hd as [|? ? H0 _]; subst. unfold dec_digit in H0.
  destruct (N.eqb_spec d 120); [lia|]. unfold parse_u32. destruct (N.eqb_spec d 43); [lia|].
  rewrite (dec_digits_val _ Hd). destruct (xml_char_from _ Hx) as [E1 E2]. unfold dec_number in *. rewrite E1, E2. reflexivity.
Qed.
Lemma numeric_hex off d ds : Forall hex_digit (d :: ds) -> xml_char (hex_number (d :: ds)) ->
  numeric_entity off (120%N :: d :: ds) = inl (TxChar off (hex_number (d :: ds))).
Proof.
  intros Hd Hx. unfold numeric_entity. rewrite N.eqb_refl. inversion Hd as [|? ? H0 _]; subst. unfold hex_digit in H0.
  unfold parse_u32. destruct (N.eqb_spec d 43); [lia|].
  rewrite (hex_digits_val _ Hd). destruct (xml_char_from _ Hx) as [E1 E2]. unfold hex_number in *. rewrite E1, E2. reflexivity.
Qed.
Lemma digits_no_semi (P : N -> Prop) ds : (forall c, P c -> c <> 59%N) -> Forall P ds -> ~ In 59%N ds.
Proof. intros H HF Hi. rewrite Forall_forall in HF. exact (H _ (HF _ Hi) eq_refl). Qed.

Section Refs.
Variables ents ce : list (str * str).
Hypothesis Hce : forall k v, first_binding k ents = Some v -> lookup_str k ce = Some v.
Variable textlen : nat.
Hypothesis Hlen : forall k v, first_binding k ents = Some v -> utf8_len v <> textlen.

Lemma fill_decodes raw s : Decodes ents raw s -> forall pos off cur buf,
  utf8_len cur + utf8_len raw <= textlen -> (In 38%N raw \/ utf8_len cur + utf8_len raw < textlen) ->
  fill_buffer ce textlen buf (parse_entities pos off false cur raw) = inl (buf ++ rev cur ++ s).
Proof.
  assert (Hamp : forall w cur raw, 38%N :: w = raw -> utf8_len cur + utf8_len raw <= textlen -> utf8_len (rev cur) < textlen).
  { intros w cur raw0 <- H. rewrite utf8_len_rev. cbn [utf8_len] in H. change (utf8_width 38) with 1 in H. lia. }
  induction 1 as [|c r s Hc HD IH|h name v r s Hh Hn Hb HD IH|d ds r s Hd Hx HD IH|d ds r s Hd Hx HD IH]; intros pos off cur buf Hle Hlt.
  - destruct cur as [|c cur]; cbn [parse_entities fill_buffer]; [rewrite !app_nil_r; reflexivity|].
    destruct Hlt as [[]|Hlt]. rewrite (proj2 (Nat.eqb_neq _ _)); [cbn [fill_buffer]; rewrite app_nil_r; reflexivity|]. rewrite utf8_len_rev. cbn [utf8_len] in Hlt |- *. lia.
  - cbn [parse_entities]. destruct (N.eqb_spec c 38); [contradiction|]. rewrite IH.
    + cbn [rev]. rewrite <- app_assoc. reflexivity.
    + cbn [utf8_len] in *. lia.
    + cbn [In utf8_len] in *. destruct Hlt as [[E|Hi]|Hlt]; [congruence | left; exact Hi | right; lia].
  - pose proof (Hamp _ cur _ eq_refl Hle) as Hl0. rewrite parse_amp. cbn [fill_buffer].
    rewrite (proj2 (Nat.eqb_neq _ _)) by lia. rewrite scan_ref by exact Hn. cbn [rev app ref_item].
    destruct (N.eqb_spec h 35); [contradiction|]. cbn [fill_buffer]. rewrite (Hce _ _ Hb). rewrite (proj2 (Nat.eqb_neq _ _)) by (eapply Hlen; exact Hb).
    rewrite IH.
    + cbn [rev app]. rewrite <- !app_assoc. reflexivity.
    + cbn [utf8_len app] in Hle |- *. change (h :: name ++ 59%N :: r) with ((h :: name) ++ 59%N :: r) in Hle. rewrite ?utf8_len_app in Hle. cbn [utf8_len] in Hle. rewrite ?utf8_len_app in Hle. cbn [utf8_len] in Hle. lia.
    + right. cbn [utf8_len app] in Hle |- *. change (utf8_width 38) with 1 in Hle. rewrite ?utf8_len_app in Hle. cbn [utf8_len] in Hle. lia.
  - pose proof (Hamp _ cur _ eq_refl Hle) as Hl0. rewrite parse_amp. cbn [fill_buffer].
    rewrite (proj2 (Nat.eqb_neq _ _)) by lia. change (35%N :: (d :: ds) ++ 59%N :: r) with ((35%N :: d :: ds) ++ 59%N :: r).
    rewrite scan_ref by (intros [E|Hi]; [discriminate E | revert Hi; eapply digits_no_semi; [|exact Hd]; unfold dec_digit; intros; lia]).
    cbn [rev app ref_item]. rewrite N.eqb_refl, (numeric_dec _ _ _ Hd Hx). cbn [fill_buffer].
    rewrite IH.
    + cbn [rev app]. rewrite <- !app_assoc. reflexivity.
    + cbn [utf8_len app] in Hle |- *. rewrite ?utf8_len_app in Hle. cbn [utf8_len] in Hle. lia.
    + right. cbn [utf8_len app] in Hle |- *. change (utf8_width 38) with 1 in Hle. rewrite ?utf8_len_app in Hle. cbn [utf8_len] in Hle. lia.
  - pose proof (Hamp _ cur _ eq_refl Hle) as Hl0. rewrite parse_amp. cbn [fill_buffer].
    rewrite (proj2 (Nat.eqb_neq _ _)) by lia. change (35%N :: 120%N :: (d :: ds) ++ 59%N :: r) with ((35%N :: 120%N :: d :: ds) ++ 59%N :: r).
    rewrite scan_ref by (intros [E|[E|Hi]]; [discriminate E | discriminate E | revert Hi; eapply digits_no_semi; [|exact Hd]; unfold hex_digit; intros; lia]).
    cbn [rev app ref_item]. rewrite N.eqb_refl, (numeric_hex _ _ _ Hd Hx). cbn [fill_buffer].
    rewrite IH.
    + cbn [rev app]. rewrite <- !app_assoc. reflexivity.
    + cbn [utf8_len app] in Hle |- *. rewrite ?utf8_len_app in Hle. cbn [utf8_len] in Hle. lia.
    + right. cbn [utf8_len app] in Hle |- *. change (utf8_width 38) with 1 in Hle. rewrite ?utf8_len_app in Hle. cbn [utf8_len] in Hle. lia.
Qed.
End Refs.

Lemma decodes_plain ents raw s : Decodes ents raw s -> ~ In 38%N raw -> s = raw.
Proof.
  induction 1 as [|c r s Hc HD IH| | |]; intros Hn; [reflexivity| | | |]; try (destruct Hn; left; reflexivity).
  f_equal. apply IH. intros H; apply Hn; right; exact H.
Qed.
Lemma parse_plain raw : ~ In 38%N raw -> forall pos off cur,
  parse_entities pos off false cur raw = match rev cur ++ raw with [] => [] | _ => [inl (TxText (off + pos) (rev cur ++ raw))] end.
Proof.
  induction raw as [|c r IH]; intros Hn pos off cur; cbn [parse_entities].
  - rewrite app_nil_r. destruct cur as [|x cur]; [reflexivity|]. destruct (rev (x :: cur)) eqn:E; [|reflexivity].
    exfalso. cbn in E. destruct (rev cur); discriminate E.
  - destruct (N.eqb_spec c 38) as [->|_]; [destruct Hn; left; reflexivity|].
    rewrite IH by (intros H; apply Hn; right; exact H). cbn [rev]. rewrite <- app_assoc. reflexivity.
Qed.
Lemma decodes_nil ents raw s : (forall k v, first_binding k ents = Some v -> v <> []) -> Decodes ents raw s -> raw <> [] -> s <> [].
Proof.
  intros Hv. induction 1 as [|c r s Hc HD IH|h name v r s Hh Hn Hb HD IH| |]; intros Hr; [congruence | discriminate | | discriminate | discriminate].
  specialize (Hv _ _ Hb). destruct v; [congruence | discriminate].
Qed.

(** text tokens without references stand for themselves *)
Lemma text_data_plain ce start raw : ~ In 38%N raw -> text_data ce start raw = inl raw.
Proof.
  intros Hn. unfold text_data. rewrite (parse_plain raw Hn). cbn [rev app].
  destruct raw as [|c r]; cbn [fill_buffer]; [reflexivity|]. rewrite Nat.eqb_refl. reflexivity.
Qed.
(** Lemma for C16: references are replaced when no byte-length coincidence occurs. *)
Lemma text_data_decodes ents ce start raw s :
  (forall k v, first_binding k ents = Some v -> lookup_str k ce = Some v) ->
  (forall k v, first_binding k ents = Some v -> v <> []) ->
  (~ In 38%N raw \/ forall k v, first_binding k ents = Some v -> utf8_len v <> utf8_len raw) ->
  Decodes ents raw s -> text_data ce start raw = inl s.
Proof.
  intros Hce Hne Hlen HD.
  destruct (in_dec N.eq_dec 38%N raw) as [Hi|Hn]; [|rewrite (decodes_plain _ _ _ HD Hn); apply text_data_plain; exact Hn].
  destruct Hlen as [Hn|Hlen]; [contradiction|].
  unfold text_data. rewrite (fill_decodes ents ce Hce (utf8_len raw) Hlen raw s HD start 0 [] []); [|cbn; lia | left; exact Hi].
  cbn [rev app]. assert (Hs : s <> []) by (eapply decodes_nil; [exact Hne | exact HD | intros ->; destruct Hi]).
  destruct s; [congruence | reflexivity].
Qed.

(** ** attribute values *)
Lemma clean_space_out v : clean_value v -> space_out v = v.
Proof.
  unfold space_out. induction 1 as [|c v (H1 & H2 & H3 & H4) _ IH]; [reflexivity|]. cbn [map]. rewrite IH.
  destruct (N.eqb_spec c 9), (N.eqb_spec c 10), (N.eqb_spec c 13); try contradiction. reflexivity.
Qed.
Lemma clean_AttValue ents v v' : clean_value v -> AttValue ents v v' -> v' = v.
Proof.
  intros Hc H. unfold AttValue in H. rewrite (clean_space_out _ Hc) in H. eapply decodes_plain; [exact H|].
  intros Hi. unfold clean_value in Hc. rewrite Forall_forall in Hc. exact (proj1 (Hc _ Hi) eq_refl).
Qed.

(** ** joining *)
Lemma joined_fix k : sep k -> ~ In (Txt []) k -> joined k = k.
Proof.
  induction k as [|[s|n a ks] k IH]; intros Hs Hn; cbn [joined]; [reflexivity| |].
  - rewrite IH; [|destruct k as [|[]]; [exact I | destruct Hs | exact Hs] | intros H; apply Hn; right; exact H].
    destruct k as [|[s'|n' a' ks'] k]; [| destruct Hs |]; (destruct s; [destruct Hn; left; reflexivity | reflexivity]).
  - rewrite IH; [reflexivity | exact Hs | intros H; apply Hn; right; exact H].
Qed.
Lemma joined_ok k : sep (joined k) /\ ~ In (Txt []) (joined k).
Proof.
  induction k as [|[s|n a ks] k [IH1 IH2]]; cbn [joined]; [split; [exact I | intros []]| |].
  - destruct (joined k) as [|[s'|n' a' ks'] k'] eqn:E.
    + destruct s; [split; [exact I | intros []]|]. split; [exact I|]. intros [H|[]]; discriminate H.
    + split; [destruct k' as [|[]]; [exact I | destruct IH1 | exact IH1]|]. intros [H|H]; [|apply IH2; right; exact H].
      injection H as H. apply app_eq_nil in H; destruct H as [_ ->]. apply IH2; left; reflexivity.
    + destruct s; [split; assumption|]. split; [exact IH1|]. intros [H|H]; [discriminate H | apply IH2; exact H].
  - split; [exact IH1|]. intros [H|H]; [discriminate H | apply IH2; exact H].
Qed.

(** ** trees *)
Lemma ns_decls_declared a : ns_decls a = ns_declared a.
Proof.
  induction a as [|[[p l] v] a IH]; [reflexivity|]. cbn [ns_decls ns_declared flat_map ns_decl]. unfold xmlns. fold (ns_declared a). rewrite IH.
  change (lit "xmlns"%string) with xmlns. unfold xmlns.
  destruct (str_eqb p _); [reflexivity|]. destruct (str_eqb p [] && _); reflexivity.
Qed.
Lemma plain_atts_ordinary a : plain_atts a = ordinary a.
Proof.
  unfold plain_atts, ordinary. apply filter_ext. intros [[p l] v]. unfold is_nsdecl, ns_decl. change (lit "xmlns"%string) with xmlns.
  destruct (str_eqb p xmlns); [reflexivity|]. destruct (str_eqb p [] && _); reflexivity.
Qed.
Fixpoint all_decls_l (ks : list xnode) : nsenv := match ks with [] => [] | k :: ks' => all_decls k ++ all_decls_l ks' end.
Fixpoint cleans decl (ks : list xnode) : Prop := match ks with [] => True | k :: ks' => clean decl k /\ cleans decl ks' end.

Fixpoint legibles decl (ks : list xnode) : Prop := match ks with [] => True | k :: ks' => legible decl k /\ legibles decl ks' end.

Section Trees.
Variable decl ents ce : list (str * str).
Variable D : nsenv.
Hypothesis Hfun : forall p u u', In (p, u) D -> In (p, u') D -> u = u'.
Hypothesis Hdef : forall u, ~ In ([], u) D.
Hypothesis Hce : forall k v, first_binding k ents = Some v -> lookup_str k ce = Some v.
Hypothesis Hne : forall k v, first_binding k ents = Some v -> v <> [].
Hypothesis Hdecl : forall k v, first_binding k ents = Some v -> In (k, v) decl \/ (utf8_len v = 1 /\ 3 <= utf8_len (38%N :: k ++ [59%N])).

Definition stk_decls (stk : elstack) : nsenv := flat_map e_ns stk.
(** the environment is contained in the stack, the stack in the document's declarations *)
Definition agree_env (env : nsenv) (stk : elstack) : Prop :=
  (forall p u, In (p, u) env -> p <> xml_prefix -> In (p, u) (stk_decls stk)) /\
  (forall x, In x (stk_decls stk) -> In x D) /\
  (forall u, ~ In ([], u) env).
Lemma lookup_ns_In stk p u : lookup_ns stk p = Some u -> In (p, u) (stk_decls stk).
Proof.
  induction stk as [|e stk IH]; cbn; [discriminate|]. destruct (lookup_str p (e_ns e)) as [u'|] eqn:E; intros H; apply in_or_app.
  - injection H as ->. left. apply lookup_str_In; exact E.
  - right; auto.
Qed.
Lemma lookup_ns_ex stk p u : In (p, u) (stk_decls stk) -> exists u', lookup_ns stk p = Some u'.
Proof.
  induction stk as [|e stk IH]; cbn; [intros []|]. intros H. destruct (lookup_str p (e_ns e)) as [u'|] eqn:E; [eauto|].
  apply in_app_or in H. destruct H as [H|H]; [|auto]. destruct (lookup_str_ex _ _ _ H) as [v Hv]. congruence.
Qed.
Lemma agree_lookup env stk p u : agree_env env stk -> p <> xml_prefix -> first_binding p env = Some u -> lookup_ns stk p = Some u.
Proof.
  intros (H1 & H2 & _) Hp H. apply first_binding_In in H. specialize (H1 _ _ H Hp). destruct (lookup_ns_ex _ _ _ H1) as [u' Hu].
  rewrite Hu. f_equal. apply lookup_ns_In in Hu. eapply Hfun; apply H2; eassumption.
Qed.
Lemma agree_elem env stk p u : agree_env env stk -> p <> xml_prefix -> elem_ns env p u -> try_lookup_ns stk p = inl u.
Proof.
  intros HA Hp H. destruct H as [c p u H|H|H|c u H].
  - cbn. rewrite (agree_lookup _ _ _ _ HA Hp H). reflexivity.
  - reflexivity.
  - reflexivity.
  - apply first_binding_In in H. destruct HA as (_ & _ & H3). destruct (H3 _ H).
Qed.
Lemma agree_atts env stk l atts : agree_env env stk ->
  Forall (fun '(q, _, v) => q <> xml_prefix /\ clean_value v) l ->
  Forall2 (Att ents env) l atts -> resolve_attrs stk l = inl atts.
Proof.
  intros HA HF H2. revert HF. induction H2 as [|x y l atts Hx _ IH]; intros HF; [reflexivity|].
  destruct x as [[p loc] v]. inversion HF as [|? ? Hpv HF']; subst. cbn in Hpv. destruct Hpv as [Hp Hv]. inversion Hx as [? ? ? u v' Hu Hv' E1 E2]; subst.
  cbn [resolve_attrs]. rewrite (clean_AttValue _ _ _ Hv Hv'), (IH HF').
  destruct Hu as [c p u H|]; [|reflexivity]. cbn [try_lookup_ns]. rewrite (agree_lookup _ _ _ _ HA Hp H). reflexivity.
Qed.
Lemma stk_decls_app a b : stk_decls (a ++ b) = stk_decls a ++ stk_decls b.
Proof. apply flat_map_app. Qed.
Lemma elems_of_decls x : forall y, In y (stk_decls (elems_of x)) -> In y (all_decls x).
Proof.
  induction x as [| | | |p l a sc kids IH] using xnode_ind'; intros y H; try (exact H).
  cbn [elems_of] in H. rewrite stk_decls_app in H. apply in_app_or in H. cbn [all_decls]. apply in_or_app. destruct H as [H|H].
  - right. induction IH as [|k ks Hk _ IHk]; [exact H|]. rewrite stk_decls_app in H. apply in_app_or in H. apply in_or_app. destruct H as [H|H]; [right; auto | left; auto].
  - left. cbn in H. rewrite app_nil_r, ns_decls_declared in H. exact H.
Qed.
Lemma agree_enter env stk p l a : agree_env env stk -> (forall x, In x (ns_declared a) -> In x D) ->
  agree_env (ns_declared a ++ env) (el_of p l a :: stk).
Proof.
  intros (H1 & H2 & H3) Ha. unfold agree_env. cbn [stk_decls flat_map el_of e_ns]. rewrite ns_decls_declared. repeat split.
  - intros q u Hi Hq. apply in_app_or in Hi. apply in_or_app. destruct Hi; auto.
  - intros x Hi. apply in_app_or in Hi. destruct Hi; auto.
  - intros u Hi. apply in_app_or in Hi. destruct Hi as [Hi|Hi]; [exact (Hdef _ (Ha _ Hi)) | exact (H3 _ Hi)].
Qed.
Lemma agree_after env stk k : agree_env env stk -> (forall x, In x (all_decls k) -> In x D) -> agree_env env (elems_of k ++ stk).
Proof.
  intros (H1 & H2 & H3) Hk. unfold agree_env. rewrite stk_decls_app. repeat split; [| |exact H3].
  - intros q u Hi Hq. apply in_or_app. right; auto.
  - intros x Hi. apply in_app_or in Hi. destruct Hi as [Hi|Hi]; [apply Hk, elems_of_decls; exact Hi | auto].
Qed.

Lemma clean_text_decodes start raw s : clean_text decl raw -> Decodes ents raw s -> text_data ce start raw = inl s.
Proof.
  intros [Hr Hc] HD. eapply text_data_decodes; [exact Hce | exact Hne | | exact HD].
  destruct Hc as [Hc|Hc]; [left; exact Hc|].
  destruct (in_dec N.eq_dec 38%N raw) as [Hi|Hi]; [right | left; exact Hi].
  intros k v Hb. destruct (Hdecl k v Hb) as [Hin|[H1 H2]].
  - rewrite Forall_forall in Hc. exact (Hc _ Hin).
  - rewrite H1. clear -HD Hi. intros E.
    induction HD as [|c r s Hcc HD IH|h name v0 r s Hh Hn Hb HD IH|d ds r s Hd Hx HD IH|d ds r s Hd Hx HD IH].
    + destruct Hi.
    + destruct Hi as [Hi|Hi]; [congruence|]. cbn in E. pose proof (utf8_width_pos c). assert (utf8_len r = 0) by lia. apply utf8_len_nil in H0; subst. destruct Hi.
    + cbn in E. rewrite utf8_len_app in E. cbn in E. pose proof (utf8_width_pos h). change (utf8_width 59) with 1 in E; change (utf8_width 38) with 1 in E; lia.
    + cbn in E. rewrite utf8_len_app in E. cbn in E. change (utf8_width 59) with 1 in E; change (utf8_width 38) with 1 in E; lia.
    + cbn in E. rewrite utf8_len_app in E. cbn in E. change (utf8_width 59) with 1 in E; change (utf8_width 38) with 1 in E; lia.
Qed.

(** items of a child list *)
Definition head_txt (is : list item) : bool := match is with Txt _ :: _ => true | _ => false end.
Lemma node_items env x i : Node ents env x i -> legible decl x ->
  (invisible x = true /\ i = []) \/ (char_data x = true /\ exists s, i = [Txt s] /\ (s = [] -> x = XCdata [])) \/
  (invisible x = false /\ char_data x = false /\ exists n a k, i = [Elm n a k]).
Proof.
  intros H Hc. destruct H as [env start raw s HD|env s|env s|env s|env p l a sc kids u atts ks H1 H2 H3].
  - right; left. split; [reflexivity|]. exists s; split; [reflexivity|]. intros ->. exfalso. eapply decodes_nil; [exact Hne | exact HD | apply Hc | reflexivity].
  - right; left. split; [reflexivity|]. exists s; split; [reflexivity | intros ->; reflexivity].
  - left; auto.
  - left; auto.
  - right; right. repeat split. eauto.
Qed.
Lemma nodes_apart env ks is : Nodes ents env ks is -> forall b, legibles decl ks -> apart b ks -> ~ In (XCdata []) ks ->
  sep is /\ ~ In (Txt []) is /\ (b = true -> head_txt is = false).
Proof.
  intros HN. refine (Nodes_mut ents (fun _ _ _ => True) (fun env ks is => forall b, legibles decl ks -> apart b ks -> ~ In (XCdata []) ks ->
    sep is /\ ~ In (Txt []) is /\ (b = true -> head_txt is = false)) _ _ _ _ _ _ _ env ks is HN); try (intros; exact I).
  - intros; repeat split; auto.
  - intros env0 k ks0 i is0 Hk _ _ IH b [Hc Hcs] Ha Hx. cbn [apart] in Ha.
    assert (Hx' : ~ In (XCdata []) ks0) by (intros H; apply Hx; right; exact H).
    destruct (node_items _ _ _ Hk Hc) as [[E ->]|[(E & s & -> & Hs)|(E1 & E2 & n & a & kk & ->)]].
    + rewrite E in Ha. cbn [app]. apply IH; assumption.
    + assert (Ei : invisible k = false) by (destruct k; cbn in *; congruence). rewrite Ei, E in Ha. destruct Ha as [Hb Ha].
      destruct (IH true Hcs Ha Hx') as (S1 & S2 & S3). cbn [app]. specialize (S3 eq_refl). repeat split.
      * destruct is0 as [|[]]; [exact I | discriminate S3 | exact S1].
      * intros [H|H]; [injection H as ->; apply Hx; left; exact (Hs eq_refl) | exact (S2 H)].
      * intros ->. discriminate (Hb eq_refl).
    + rewrite E1, E2 in Ha. destruct Ha as [_ Ha]. destruct (IH false Hcs Ha Hx') as (S1 & S2 & _). cbn [app]. repeat split.
      * exact S1.
      * intros [H|H]; [discriminate H | exact (S2 H)].
Qed.
Lemma apart_dec ks : forall b, apart b ks \/ ~ apart b ks.
Proof.
  induction ks as [|k ks IH]; intros b; cbn [apart]; [left; exact I|]. destruct (invisible k); [apply IH|].
  destruct (IH (char_data k)) as [H|H]; [|right; intros [_ H']; exact (H H')].
  destruct (char_data k), b; [right; intros [H' _]; discriminate (H' eq_refl) | left; auto | left; split; [discriminate | exact H] | left; split; [discriminate | exact H]].
Qed.
Lemma cdata_dec ks : In (XCdata []) ks \/ ~ In (XCdata []) ks.
Proof.
  induction ks as [|k ks [IH|IH]]; [right; intros [] | left; right; exact IH|].
  destruct k as [|[|]| | |]; try (left; left; reflexivity); right; intros [H|H]; try discriminate H; contradiction.
Qed.
Lemma sepb_sep w : sepb w = true <-> sep w.
Proof. induction w as [|[s|] [|[s'|] w] IH]; cbn in *; try tauto; try (split; [discriminate | intros []]). Qed.
Lemma sep_merged w : sep (map merged w) <-> sep w.
Proof. induction w as [|[s|] [|[s'|] w] IH]; cbn in *; tauto. Qed.
Lemma whole_iff k : whole k = true <-> sep k /\ ~ In (Txt []) k.
Proof.
  unfold whole. rewrite andb_true_iff, sepb_sep, forallb_forall. split.
  - intros [H1 H2]. split; [exact H1|]. intros H. specialize (H2 _ H). discriminate H2.
  - intros [H1 H2]. split; [exact H1|]. intros [[|]|] H; try reflexivity. contradiction.
Qed.
Lemma whole_merged k : whole (map merged k) = whole k.
Proof.
  apply Bool.eq_true_iff_eq. rewrite !whole_iff, sep_merged. split; intros [H1 H2]; (split; [exact H1|]); intros H; apply H2.
  - change (Txt []) with (merged (Txt [])). apply in_map. exact H.
  - apply in_map_iff in H. destruct H as ([s|] & E & H); [|discriminate E]. cbn in E. injection E as ->. exact H.
Qed.

(** what the code reads, joined, is what the document says; its pieces are those of the document *)
Theorem node_cview :
  (forall env x i, Node ents env x i -> forall stk, agree_env env stk -> legible decl x -> (forall y, In y (all_decls x) -> In y D) ->
    exists j, cview ce stk x = Some j /\ map merged j = i /\ forall q, In q (flat_map pieces j) -> SplitIn env x q) /\
  (forall env ks is, Nodes ents env ks is -> forall stk, agree_env env stk -> legibles decl ks -> (forall y, In y (all_decls_l ks) -> In y D) ->
    exists js, cviews ce stk ks = Some js /\ map merged js = is /\ forall q, In q (flat_map pieces js) -> exists k, In k ks /\ SplitIn env k q).
Proof.
  apply Node_Nodes_ind.
  - intros env start raw s HD stk HA Hc _. cbn [cview]. rewrite (clean_text_decodes _ _ _ Hc HD). eexists; split; [reflexivity|]. split; [reflexivity | intros q []].
  - intros; eexists; split; [reflexivity|]. split; [reflexivity | intros q []].
  - intros; eexists; split; [reflexivity|]. split; [reflexivity | intros q []].
  - intros; eexists; split; [reflexivity|]. split; [reflexivity | intros q []].
  - intros env p l a sc kids u atts ks H1 H2 H3 IH stk HA (Hp & Hat & Hks) HD.
    assert (Ha : forall x, In x (ns_declared a) -> In x D) by (intros x Hx; apply HD; cbn [all_decls]; apply in_or_app; left; exact Hx).
    pose proof (agree_enter env stk p l a HA Ha) as HA'.
    rewrite cview_elem. cbn zeta. rewrite (agree_elem _ _ _ _ HA' Hp H1), plain_atts_ordinary, (agree_atts _ _ _ _ HA' Hat H2).
    assert (Hcl : legibles decl kids) by (clear -Hks; induction kids as [|k kids IHk]; [exact I | destruct Hks; split; auto]).
    destruct (IH _ HA' Hcl) as (js & Ej & Em & Hq); [intros y Hy; apply HD; cbn [all_decls]; apply in_or_app; right; exact Hy|].
    rewrite Ej. eexists; split; [reflexivity|]. split; [cbn [map merged]; rewrite Em; reflexivity|].
    intros q Hin. cbn [flat_map pieces] in Hin. rewrite app_nil_r in Hin. apply in_app_or in Hin. destruct Hin as [Hin|Hin].
    + destruct (whole js) eqn:Ew; [destruct Hin|]. destruct Hin as [<-|[]]. apply split_here; [exact H1|].
      destruct (apart_dec kids false) as [Hap|Hap]; [|left; exact Hap]. destruct (cdata_dec kids) as [Hx|Hx]; [right; exact Hx|].
      exfalso. destruct (nodes_apart _ _ _ H3 false Hcl Hap Hx) as (S1 & S2 & _). rewrite <- whole_merged, Em in Ew.
      rewrite (proj2 (whole_iff ks) (conj S1 S2)) in Ew. discriminate Ew.
    + destruct (Hq q Hin) as (k0 & Hk & HS). eapply split_below; [exact Hk | exact HS].
  - intros; eexists; split; [reflexivity|]. split; [reflexivity | intros q []].
  - intros env k ks i is _ IHk _ IHks stk HA [Hc Hcs] HD. cbn [cviews]. cbn [all_decls_l] in HD.
    destruct (IHk stk HA Hc) as (j & Ej & Em & Hq); [intros y Hy; apply HD, in_or_app; left; exact Hy|]. rewrite Ej.
    destruct (IHks (elems_of k ++ stk)) as (js & Ejs & Ems & Hqs); [|exact Hcs | intros y Hy; apply HD, in_or_app; right; exact Hy|].
    { apply agree_after; [exact HA | intros y Hy; apply HD, in_or_app; left; exact Hy]. }
    rewrite Ejs. eexists; split; [reflexivity|]. split; [rewrite map_app, Em, Ems; reflexivity|].
    intros q Hin. rewrite flat_map_app in Hin. apply in_app_or in Hin. destruct Hin as [Hin|Hin].
    + exists k. split; [left; reflexivity | exact (Hq q Hin)].
    + destruct (Hqs q Hin) as (k0 & Hk & HS). exists k0. split; [right; exact Hk | exact HS].
Qed.
End Trees.

Theorem document_raw d root : doc_reads d -> Document d root ->
  exists raw, cview (ents_after initial_entities (d_prolog d)) [] (d_root d) = Some [raw] /\ merged raw = root /\
    forall q, In q (pieces raw) -> SplitIn initial_env (d_root d) q.
Proof.
  intros [Hwf Hpre Hdef Hnd Hval Hcl] HD.
  destruct (proj1 (node_cview (declared (d_prolog d)) (entities (d_prolog d)) (ents_after initial_entities (d_prolog d)) (all_decls (d_root d)) Hpre Hdef
    ltac:(intros k v H; eapply lookup_first; [exact Hnd | | | exact H]; intros x; rewrite ents_after_In, initial_predefined; unfold entities; rewrite in_app_iff; tauto)
    ltac:(intros k v H; apply first_binding_In in H; unfold entities in H; apply in_app_or in H; destruct H as [H|H]; [|exact (proj1 (Hval _ _ H))];
      cbn in H; destruct H as [H|[H|[H|[H|[H|[]]]]]]; injection H as <- <-; discriminate)
    ltac:(intros k v H; apply first_binding_In in H; unfold entities in H; apply in_app_or in H; destruct H as [H|H]; [right | left; exact H];
      cbn in H; destruct H as [H|[H|[H|[H|[H|[]]]]]]; injection H as <- <-; (split; [reflexivity | cbn; lia]))) _ _ _ HD []) as (j & Ej & Em & Hq).
  - repeat split.
    + intros p u [H|[]] Hp. injection H as <- <-. destruct Hp; reflexivity.
    + intros x [].
    + intros u [H|[]]. discriminate H.
  - exact Hcl.
  - auto.
  - destruct j as [|raw [|? ?]]; try discriminate Em. cbn in Em. injection Em as Em. exists raw. split; [exact Ej|]. split; [exact Em|].
    intros q Hin. apply Hq. cbn. rewrite app_nil_r. exact Hin.
Qed.
Lemma clean_legible decl x : clean decl x -> legible decl x.
Proof.
  induction x as [| | | |p l a sc kids IH] using xnode_ind'; try (intros; exact I); [intros H; exact H|].
  intros (H1 & H2 & _ & H3). split; [exact H1|]. split; [exact H2|]. induction IH as [|k ks Hk _ IHk]; [exact I|]. destruct H3 as [H3 H4]; split; [exact (Hk H3) | exact (IHk H4)].
Qed.
Lemma scope_reads d : doc_scope d -> doc_reads d.
Proof.
  intros [H1 H2 H3 H4 H5 H6]. constructor; try assumption. apply clean_legible; exact H6.
Qed.
Lemma clean_split decl x : clean decl x -> forall env q, ~ SplitIn env x q.
Proof.
  induction x as [| | | |p l a sc kids IH] using xnode_ind'; intros H env q HS; try (inversion HS; fail).
  destruct H as (_ & _ & H1 & H2).
  assert (Hcl : cleans decl kids) by (clear -H2; induction kids as [|k kids IHk]; [exact I | destruct H2; split; auto]).
  inversion HS as [? ? ? ? ? ? u Hu [Hx|Hx]|? ? ? ? ? ? k ? Hk Hkq]; subst.
  - exact (Hx H1).
  - clear -Hcl Hx. induction kids as [|k kids IHk]; [destruct Hx|]. destruct Hcl as [C1 C2], Hx as [->|Hx]; [exact (C1 eq_refl) | exact (IHk C2 Hx)].
  - rewrite Forall_forall in IH. apply (IH k Hk) with (env := ns_declared a ++ env) (q := q); [|exact Hkq].
    clear -Hcl Hk. induction kids as [|k0 kids IHk]; [destruct Hk|]. destruct Hcl as [C1 C2], Hk as [->|Hk]; auto.
Qed.
Theorem document_cview d root : doc_scope d -> Document d root ->
  cview (ents_after initial_entities (d_prolog d)) [] (d_root d) = Some [root] /\ merged root = root /\ pieces root = [].
Proof.
  intros Hs HD. destruct (document_raw d root (scope_reads d Hs) HD) as (raw & Hc & Hm & Hq).
  assert (E : pieces raw = []).
  { destruct (pieces raw) as [|q l]; [reflexivity|]. destruct (clean_split _ _ (ds_clean d Hs) _ q (Hq q (or_introl eq_refl))). }
  assert (Er : merged raw = raw).
  { clear -E. revert raw E. fix IH 1. intros [s|n a k] H; [reflexivity|]. cbn [pieces] in H. apply app_eq_nil in H. destruct H as [H1 H2]. cbn [merged].
    assert (E : map merged k = k).
    { clear H1. induction k as [|x k IHk]; [reflexivity|]. cbn in H2. apply app_eq_nil in H2. destruct H2 as [H2 H3]. cbn [map]. rewrite (IH x H2), (IHk H3). reflexivity. }
    rewrite E. destruct (whole k) eqn:Ek; [|discriminate H1]. apply whole_iff in Ek. rewrite joined_fix; [reflexivity | apply Ek | apply Ek]. }
  rewrite Er in Hm. subst raw. auto.
Qed.
