(** * XmlBase: strings, attributes, children and paths of XML schemas. *)
From Coq Require Import String.
From Verif Require Import Base Datatype Facets DatatypeSpec DatatypeProof DatatypeProof2 DatatypeMain Syntax XmlSyntax RngXml XmlScope.

(** ** White space *)
Lemma space_uni c : is_space c -> is_uni_ws c = true.
Proof. intros [-> | [-> | [-> | ->]]]; reflexivity. Qed.
Lemma clear_space s : clear s -> Forall (fun c => is_uni_ws c = true <-> is_space c) s.
Proof. apply Forall_impl. intros c H. split; [exact H | apply space_uni]. Qed.
Lemma drop_ws_spec s : exists a, s = a ++ drop_ws s /\ Forall (fun c => is_uni_ws c = true) a /\ (forall c t, drop_ws s = c :: t -> is_uni_ws c = false).
Proof.
  induction s as [|c s IH]; [exists []; split; [reflexivity|]; split; [constructor | discriminate]|].
  cbn. destruct (is_uni_ws c) eqn:E.
  - destruct IH as (a & H1 & H2 & H3). exists (c :: a). split; [cbn; congruence|]. split; [constructor; assumption | exact H3].
  - exists []. split; [reflexivity|]. split; [constructor|]. intros d t [= <- <-]. exact E.
Qed.
Lemma drop_ws_app a s : Forall (fun c => is_uni_ws c = true) a -> drop_ws (a ++ s) = drop_ws s.
Proof. induction 1 as [|c a H HF IH]; [reflexivity|]. cbn. rewrite H. exact IH. Qed.
Lemma drop_ws_id c s : is_uni_ws c = false -> drop_ws (c :: s) = c :: s.
Proof. intros H. cbn. rewrite H. reflexivity. Qed.
Definition edges (t : str) : Prop := (forall c r, t = c :: r -> is_uni_ws c = false) /\ (forall c r, t = r ++ [c] -> is_uni_ws c = false).
Lemma drop_ws_edge t : (forall c r, t = c :: r -> is_uni_ws c = false) -> drop_ws t = t.
Proof. destruct t as [|c r]; [reflexivity|]. intros H. apply drop_ws_id, (H c r eq_refl). Qed.
Lemma trim_split a t b : Forall (fun c => is_uni_ws c = true) a -> Forall (fun c => is_uni_ws c = true) b -> t <> [] -> edges t -> trim (a ++ t ++ b) = t.
Proof.
  intros Ha Hb Hn [H1 H2]. unfold trim. rewrite drop_ws_app by exact Ha.
  destruct t as [|c r]; [congruence|]. cbn [app]. rewrite drop_ws_id by (apply (H1 c r); reflexivity).
  change (c :: r ++ b) with ((c :: r) ++ b). rewrite rev_app_distr, drop_ws_app by (apply Forall_rev; exact Hb).
  rewrite drop_ws_edge, rev_involutive; [reflexivity|]. intros d s Hs. apply (H2 d (rev s)). rewrite <- (rev_involutive (c :: r)), Hs. reflexivity.
Qed.
Lemma trim_spec s : exists a b, s = a ++ trim s ++ b /\ Forall (fun c => is_uni_ws c = true) a /\ Forall (fun c => is_uni_ws c = true) b /\ edges (trim s).
Proof.
  destruct (drop_ws_spec s) as (a & H1 & H2 & H3). unfold trim. destruct (drop_ws_spec (rev (drop_ws s))) as (b & K1 & K2 & K3).
  set (t := drop_ws (rev (drop_ws s))) in *. assert (Hd : drop_ws s = rev t ++ rev b) by (rewrite <- rev_app_distr, <- K1, rev_involutive; reflexivity).
  exists a, (rev b). split; [congruence|]. split; [exact H2|]. split; [apply Forall_rev; exact K2|]. split.
  - intros c r Hc. rewrite Hc in Hd. exact (H3 _ _ Hd).
  - intros c r Hc. apply (K3 c (rev r)). rewrite <- (rev_involutive t), Hc, rev_app_distr. reflexivity.
Qed.
Lemma trim_idem s : trim (trim s) = trim s.
Proof.
  destruct (trim_spec s) as (a & b & _ & _ & _ & He). destruct (trim s) as [|c t] eqn:E; [reflexivity|].
  rewrite <- (app_nil_r (c :: t)) at 1. apply (trim_split [] (c :: t) []); [constructor | constructor | discriminate | exact He].
Qed.
Lemma trim_nil_blank s : Forall (fun c => is_uni_ws c = true) s -> trim s = [].
Proof. intros H. unfold trim. rewrite <- (app_nil_r s), (drop_ws_app s []) by exact H. reflexivity. Qed.
(** characters of names are not white space or colons *)
Lemma name_char_space c : NameChar c -> ~ is_space c.
Proof. unfold NameChar, NameStart, is_space. lia. Qed.
Lemma name_char_colon c : NameChar c -> c <> 58%N.
Proof. unfold NameChar, NameStart. lia. Qed.
Lemma NCName_chars s : NCName s -> Forall NameChar s.
Proof. intros (c & r & -> & H1 & H2). constructor; [left; exact H1 | exact H2]. Qed.
Lemma NCName_nonempty s : NCName s -> s <> [].
Proof. intros (c & r & -> & _) [=]. Qed.
Lemma NCName_colon s : NCName s -> ~ In 58%N s.
Proof. intros H Hi. apply NCName_chars in H. rewrite Forall_forall in H. exact (name_char_colon _ (H _ Hi) eq_refl). Qed.
Lemma blank_uni a : blank a -> Forall (fun c => is_uni_ws c = true) a.
Proof. apply Forall_impl. intros c H. apply space_uni, H. Qed.
Lemma clear_blank a : clear a -> Forall (fun c => is_uni_ws c = true) a -> blank a.
Proof. unfold clear, blank. rewrite !Forall_forall. intros H1 H2 c Hc. exact (H1 c Hc (H2 c Hc)). Qed.
Lemma clear_app a b : clear (a ++ b) <-> clear a /\ clear b.
Proof. apply Forall_app. Qed.
Lemma blank_app a b : blank (a ++ b) <-> blank a /\ blank b.
Proof. apply Forall_app. Qed.
Lemma blank_clear a : blank a -> clear a.
Proof. apply Forall_impl. intros c H _. exact H. Qed.
Lemma blank_colon a : blank a -> ~ In 58%N a.
Proof. intros H Hi. unfold blank in H. rewrite Forall_forall in H. specialize (H _ Hi). lia. Qed.
(** no white space at either end *)
Definition solid (t : str) : Prop := t <> [] /\ (forall c r, t = c :: r -> ~ is_space c) /\ (forall c r, t = r ++ [c] -> ~ is_space c).
Lemma solid_edges t : clear t -> solid t -> edges t.
Proof.
  intros H (_ & H1 & H2). unfold clear in H. rewrite Forall_forall in H. split; intros c r Hc.
  - destruct (is_uni_ws c) eqn:E; [|reflexivity]. exfalso. apply (H1 c r Hc), H; [rewrite Hc; left; reflexivity | exact E].
  - destruct (is_uni_ws c) eqn:E; [|reflexivity]. exfalso. apply (H2 c r Hc), H; [rewrite Hc; apply in_or_app; right; left; reflexivity | exact E].
Qed.
Lemma chars_solid t : t <> [] -> Forall (fun c => ~ is_space c) t -> solid t.
Proof.
  intros Hn H. rewrite Forall_forall in H. split; [exact Hn|]. split; intros c r ->; apply H; [left; reflexivity | apply in_or_app; right; left; reflexivity].
Qed.
Lemma NCName_solid t : NCName t -> solid t.
Proof. intros H. apply chars_solid; [apply NCName_nonempty; exact H|]. eapply Forall_impl; [|apply NCName_chars; exact H]. intros c; apply name_char_space. Qed.
Lemma trim_padded s t : clear s -> solid t -> (trim s = t <-> Padded s t).
Proof.
  intros Hs Ht. split.
  - intros <-. destruct (trim_spec s) as (a & b & H & Ha & Hb & _). exists a, b. rewrite H in Hs. rewrite !clear_app in Hs. destruct Hs as (H1 & H2 & H3).
    split; [exact H|]. split; apply clear_blank; assumption.
  - intros (a & b & -> & Ha & Hb). rewrite !clear_app in Hs. apply trim_split; [apply blank_uni; exact Ha | apply blank_uni; exact Hb | apply Ht|]. apply solid_edges; [apply Hs | exact Ht].
Qed.
Lemma ncname_trim s l : ncname s = Some l <-> trim s = l /\ NCName l.
Proof.
  unfold ncname. destruct (trim s) as [|c t] eqn:E.
  - split; [discriminate|]. intros [<- H]. destruct (NCName_nonempty _ H eq_refl).
  - destruct (nc_start_char c && forallb nc_char t) eqn:E2.
    + apply andb_prop in E2 as [H1 H2]. rewrite forallb_forall in H2. split.
      * intros [= <-]. split; [reflexivity|]. exists c, t. split; [reflexivity|]. split; [apply start_spec; exact H1|]. rewrite Forall_forall. intros d Hd. apply char_spec, H2, Hd.
      * intros [<- _]. reflexivity.
    + split; [discriminate|]. intros [<- (d & r & [= <- <-] & H1 & H2)]. exfalso. apply start_spec in H1. rewrite H1 in E2. cbn in E2.
      assert (forallb nc_char t = true); [|congruence]. apply forallb_forall. rewrite Forall_forall in H2. intros d Hd. apply char_spec, H2, Hd.
Qed.
Lemma ncname_ok s l : clear s -> (ncname s = Some l <-> Named s l).
Proof.
  intros Hs. rewrite ncname_trim. unfold Named. split; intros [H1 H2]; (split; [|exact H2]); (apply trim_padded; [exact Hs | apply NCName_solid; exact H2 | exact H1]).
Qed.
Lemma ncname_of_trim s : ncname (trim s) = ncname s.
Proof. unfold ncname. rewrite trim_idem. reflexivity. Qed.
Lemma has_colon_In v : has_colon v = true <-> In 58%N v.
Proof. unfold has_colon. rewrite existsb_exists. split; [intros (c & H & E); apply N.eqb_eq in E; subst; exact H | intros H; exists 58%N; auto]. Qed.
Lemma Named_colon v l : Named v l -> ~ In 58%N v.
Proof.
  intros [(a & b & -> & Ha & Hb) H]. rewrite !in_app_iff. intros [Hi|[Hi|Hi]]; [exact (blank_colon _ Ha Hi) | exact (NCName_colon _ H Hi) | exact (blank_colon _ Hb Hi)].
Qed.
Lemma attr_ncname_ok v l : clear v -> (attr_ncname v = Some l <-> Named v l).
Proof.
  intros Hv. unfold attr_ncname. rewrite ncname_of_trim. destruct (has_colon v) eqn:E.
  - apply has_colon_In in E. split; [discriminate|]. intros H. destruct (Named_colon _ _ H E).
  - apply ncname_ok, Hv.
Qed.
Lemma Padded_unique s t t' : solid t -> solid t' -> clear s -> Padded s t -> Padded s t' -> t = t'.
Proof. intros H1 H2 Hs P1 P2. apply trim_padded in P1, P2; auto. congruence. Qed.

(** ** Colons *)
Lemma find_colon_none v : find_colon v = None <-> ~ In 58%N v.
Proof.
  unfold find_colon. induction v as [|c v IH]; cbn; [split; [intros _ [] | reflexivity]|].
  destruct (N.eqb_spec c 58) as [->|Hc]; cbn; [split; [discriminate | intros H; exfalso; auto]|].
  destruct (take_while _ v) as [a b]. destruct b; cbn in *; (split; [intros H; try discriminate H | intros H]).
  - intros [E|E]; [congruence|]. apply IH in E; auto.
  - reflexivity.
  - exfalso. assert (X : Some (a, b) = None) by (apply IH; intros E; apply H; auto). discriminate X.
Qed.
Lemma find_colon_some v p l : find_colon v = Some (p, l) <-> v = p ++ lit ":" ++ l /\ ~ In 58%N p.
Proof.
  unfold find_colon. revert p. induction v as [|c v IH]; intros p; cbn.
  - split; [discriminate|]. intros [H _]. destruct p; discriminate H.
  - destruct (N.eqb_spec c 58) as [->|Hc]; cbn.
    + split; [intros [= <- <-]; split; [reflexivity | intros []]|]. intros [H Hn]. destruct p as [|d p]; [injection H as <-; reflexivity|]. injection H as <- _. exfalso; apply Hn; left; reflexivity.
    + destruct (take_while _ v) as [a b] eqn:E. cbn in *. split.
      * intros H. destruct b as [|d b]; [discriminate H|]. injection H as <- <-. destruct (proj1 (IH a) eq_refl) as [-> Hn]. split; [reflexivity|]. intros [H|H]; [congruence | exact (Hn H)].
      * intros [H Hn]. destruct p as [|d p]; [injection H as -> _; congruence|]. injection H as <- H.
        assert (X : match b with [] => None | _ :: b' => Some (a, b') end = Some (p, l)) by (apply IH; split; [exact H | intros Hi; apply Hn; right; exact Hi]).
        destruct b; [discriminate X|]. injection X as <- <-. reflexivity.
Qed.

(** ** Attributes *)
Definition distinct (atts : list xatt) : Prop := NoDup (map (fun a => (xa_ns a, xa_name a)) atts).
Lemma att_Has n atts v : distinct atts -> (att n atts = Some v <-> Has atts n v).
Proof.
  unfold Has. intros Hd. induction atts as [|[ns nm w] l IH]; [split; [discriminate | intros []]|]. cbn [att xa_ns xa_name xa_value].
  unfold distinct in Hd. cbn [map xa_ns xa_name] in Hd. apply NoDup_cons_iff in Hd as [Hn Hd]. specialize (IH Hd).
  destruct ((match ns with None => true | Some _ => false end) && str_eqb nm (lit n)) eqn:E.
  - apply andb_prop in E as [E1 E2]. destruct ns; [discriminate E1|]. apply str_eqb_eq in E2. subst nm. split.
    + intros [= ->]. left. reflexivity.
    + intros [H|H]; [injection H as ->; reflexivity|]. exfalso. apply Hn. apply in_map_iff. exists (XAtt None (lit n) v). auto.
  - rewrite IH. split; [right; assumption|]. intros [H|H]; [|exact H]. exfalso. injection H as -> -> ->. rewrite str_eqb_refl in E. discriminate E.
Qed.
Lemma att_Lacks n atts : distinct atts -> (att n atts = None <-> Lacks atts n).
Proof.
  intros Hd. split.
  - intros H v Hv. apply att_Has in Hv; [congruence | exact Hd].
  - intros H. destruct (att n atts) as [v|] eqn:E; [|reflexivity]. apply att_Has in E; [|exact Hd]. destruct (H _ E).
Qed.
Lemma Has_unique n atts v w : distinct atts -> Has atts n v -> Has atts n w -> v = w.
Proof. intros Hd H1 H2. apply att_Has in H1, H2; auto. congruence. Qed.
Lemma inherited_ok n up v : Forall distinct up -> (or_empty (inherited n up) = v <-> InForce n up v).
Proof.
  intros H. split.
  - intros <-. induction H as [|atts up Hd _ IH]; [constructor|]. cbn. destruct (att n atts) as [w|] eqn:E.
    + apply If_here. apply att_Has; assumption.
    + apply If_above; [apply att_Lacks; assumption | exact IH].
  - intros HI. induction HI as [|atts up v Hv|atts up v Hl HI IH]; [reflexivity| |]; inversion H; subst; cbn.
    + apply att_Has in Hv; [rewrite Hv; reflexivity | assumption].
    + apply att_Lacks in Hl; [rewrite Hl; auto | assumption].
Qed.
Lemma InForce_ok n up : Forall distinct up -> InForce n up (or_empty (inherited n up)).
Proof. intros H. apply inherited_ok; auto. Qed.
Lemma no_attrs_ok atts names : (forall a, In a atts -> xa_ns a <> Some rng_uri) ->
  (no_attrs_except atts names = true <-> forall a, In a atts -> xa_ns a = None -> exists n, In n names /\ xa_name a = lit n).
Proof.
  intros Hf. unfold no_attrs_except. rewrite negb_true_iff. split.
  - intros H a Ha Hn. destruct (existsb (fun n => str_eqb (xa_name a) (lit n)) names) eqn:E.
    + apply existsb_exists in E as (n & H1 & H2). apply str_eqb_eq in H2. eauto.
    + exfalso. assert (X : existsb (fun a => is_rng_att a && negb (existsb (fun n => str_eqb (xa_name a) (lit n)) names)) atts = true); [|congruence].
      apply existsb_exists. exists a. split; [exact Ha|]. rewrite E. unfold is_rng_att. rewrite Hn. reflexivity.
  - intros H. destruct (existsb _ atts) eqn:E; [|reflexivity]. exfalso. apply existsb_exists in E as (a & Ha & E). apply andb_prop in E as [E1 E2].
    apply negb_true_iff in E2. assert (Hn : xa_ns a = None).
    { unfold is_rng_att in E1. destruct (xa_ns a) as [u|] eqn:En; [|reflexivity]. cbn in E1. apply str_eqb_eq in E1. subst u. destruct (Hf a Ha En). }
    destruct (H a Ha Hn) as (n & H1 & H2). assert (X : existsb (fun n => str_eqb (xa_name a) (lit n)) names = true); [|congruence].
    apply existsb_exists. exists n. split; [exact H1 | apply str_eqb_eq; exact H2].
Qed.
Lemma no_attrs_Only atts names : (forall a, In a atts -> xa_ns a <> Some rng_uri) ->
  (no_attrs_except atts (names ++ ["ns"; "datatypeLibrary"]%string) = true <-> Only atts names).
Proof.
  intros Hf. rewrite no_attrs_ok by exact Hf. unfold Only. split.
  - intros H a Ha. split; [apply Hf; exact Ha | apply H; exact Ha].
  - intros H a Ha. apply H. exact Ha.
Qed.
Lemma Only_sub atts l l' : Only atts l -> (forall n v, In n l -> Has atts n v -> In n l') -> Only atts l'.
Proof.
  intros H Hs a Ha. destruct (H a Ha) as [H1 H2]. split; [exact H1|]. intros Hn. destruct (H2 Hn) as (n & Hi & E). exists n. split; [|exact E].
  rewrite in_app_iff in *. destruct Hi as [Hi|Hi]; [left | right; exact Hi]. apply (Hs n (xa_value a) Hi). unfold Has. destruct a as [ns nm w]; cbn in *. subst. exact Ha.
Qed.
Lemma std_attrs_ok U atts : distinct atts -> (std_attrs U atts = true <-> LibOk U atts).
Proof.
  intros Hd. unfold std_attrs, LibOk. destruct (att "datatypeLibrary" atts) as [v|] eqn:E.
  - apply att_Has in E; [|exact Hd]. split.
    + intros H w Hw. rewrite (Has_unique _ _ _ _ Hd Hw E). destruct v; auto.
    + intros H. destruct (H v E) as [->|H1]; [reflexivity | destruct v; auto].
  - apply att_Lacks in E; [|exact Hd]. split; [intros _ v Hv; destruct (E v Hv) | reflexivity].
Qed.

(** ** Qualified names *)
Lemma scope_uri_ok sc p u : NoDup (map fst sc) -> (scope_uri sc p = Some u <-> In (Some p, u) sc).
Proof.
  induction sc as [|[[q|] w] sc IH]; cbn [scope_uri map fst]; [split; [discriminate | intros []]| |]; intros Hd; apply NoDup_cons_iff in Hd as [Hn Hd]; specialize (IH Hd).
  - destruct (str_eqb q p) eqn:E.
    + apply str_eqb_eq in E. subst q. split; [intros [= ->]; left; reflexivity|]. intros [H|H]; [injection H as ->; reflexivity|].
      exfalso. apply Hn. apply in_map_iff. exists (Some p, u). auto.
    + rewrite IH. split; [right; assumption|]. intros [H|H]; [|exact H]. injection H as -> _. rewrite str_eqb_refl in E. discriminate E.
  - rewrite IH. split; [right; assumption|]. intros [H|H]; [discriminate H | exact H].
Qed.
Lemma prefix_uri_ok sc p u : NoDup (map fst sc) -> (prefix_uri sc p = Some u <-> p = lit "xml" /\ u = xml_ns \/ p <> lit "xml" /\ In (Some p, u) sc).
Proof.
  intros Hd. unfold prefix_uri. destruct (str_eqb p (lit "xml")) eqn:E.
  - apply str_eqb_eq in E. split; [intros [= <-]; auto|]. intros [[_ ->]|[H _]]; [reflexivity | congruence].
  - apply str_eqb_neq in E. rewrite scope_uri_ok by exact Hd. tauto.
Qed.
Lemma xml_NCName : NCName (lit "xml").
Proof. apply ncname_spec. vm_compute. reflexivity. Qed.
Lemma NCName_no_space t : NCName t -> Forall (fun c => ~ is_space c) t.
Proof. intros H. eapply Forall_impl; [|apply NCName_chars; exact H]. intros c. apply name_char_space. Qed.
Lemma qname_att_ok sc up v q : NoDup (map fst sc) -> (forall p u, In (Some p, u) sc -> NCName p) -> clear v ->
  (forall a b c, is_space c -> v <> a ++ c :: lit ":" ++ b /\ v <> a ++ lit ":" ++ c :: b) ->
  (qname_att sc up v = Some q <-> QName sc (or_empty (inherited "ns" up)) v q).
Proof.
  intros Hd Hp Hv Hc. unfold qname_att. set (ns := or_empty (inherited "ns" up)). destruct (find_colon v) as [[p l]|] eqn:E.
  - apply find_colon_some in E as [E Hn]. assert (Hcp : clear p /\ clear l) by (rewrite E in Hv; rewrite !clear_app in Hv; tauto). destruct Hcp as [Cp Cl].
    split.
    + destruct (prefix_uri sc (trim p)) as [u|] eqn:Eu; [|discriminate]. destruct (ncname l) as [l'|] eqn:El; [|discriminate]. intros [= <-].
      apply prefix_uri_ok in Eu; [|exact Hd]. assert (HN : NCName (trim p)) by (destruct Eu as [[-> _]|[_ Hi]]; [apply xml_NCName | exact (Hp _ _ Hi)]).
      apply (proj1 (ncname_ok _ _ Cl)) in El as [(b1 & b2 & -> & Hb1 & Hb2) Hl].
      assert (Pp : Padded p (trim p)) by (apply trim_padded; [exact Cp | apply NCName_solid; exact HN | reflexivity]).
      destruct Pp as (a1 & a2 & Ep & Ha1 & Ha2). set (tp := trim p) in *. clearbody tp.
      assert (Ea : a2 = []).
      { destruct a2 as [|x a2] using rev_ind; [reflexivity|]. exfalso. apply (proj1 (Hc (a1 ++ tp ++ a2) (b1 ++ l' ++ b2) x ltac:(apply Forall_app in Ha2 as [_ Ha2]; inversion Ha2; assumption))).
        rewrite E, Ep. rewrite <- !app_assoc. reflexivity. }
      assert (Eb : b1 = []).
      { destruct b1 as [|x b1]; [reflexivity|]. exfalso. apply (proj2 (Hc p (b1 ++ l' ++ b2) x ltac:(inversion Hb1; assumption))). rewrite E. reflexivity. }
      subst a2 b1. apply (Q_prefix sc ns v tp l' u); auto. exists a1, b2. split; [|auto]. rewrite E, Ep. rewrite app_nil_r, <- !app_assoc. reflexivity.
    + intros HQ. inversion HQ as [s l0 HNm|s p0 l0 u (a & b & Ev & Ha & Hb) Hp0 Hl0 Hu]; subst.
      * exfalso. apply (Named_colon _ _ HNm). rewrite in_app_iff. right. left. reflexivity.
      * assert (Es : find_colon (p ++ lit ":" ++ l) = Some (a ++ p0, l0 ++ b)).
        { apply find_colon_some. split; [rewrite Ev, <- !app_assoc; reflexivity|]. rewrite in_app_iff. intros [Hi|Hi]; [exact (blank_colon _ Ha Hi) | exact (NCName_colon _ Hp0 Hi)]. }
        assert (Es' : find_colon (p ++ lit ":" ++ l) = Some (p, l)) by (apply find_colon_some; auto). rewrite Es in Es'. injection Es' as <- <-.
        assert (Et : trim (a ++ p0) = p0) by (apply trim_padded; [exact Cp | apply NCName_solid; exact Hp0 | exists a, []; rewrite app_nil_r; split; [reflexivity | split; [exact Ha | constructor]]]).
        rewrite Et. apply prefix_uri_ok in Hu; [|exact Hd]. rewrite Hu.
        assert (El : ncname (l0 ++ b) = Some l0) by (apply ncname_ok; [exact Cl|]; split; [exists [], b; split; [reflexivity | split; [constructor | exact Hb]] | exact Hl0]).
        rewrite El. reflexivity.
  - apply find_colon_none in E. split.
    + destruct (ncname v) as [l|] eqn:El; [|discriminate]. intros [= <-]. apply Q_plain. apply ncname_ok; assumption.
    + intros HQ. inversion HQ as [s l0 HNm|s p0 l0 u (a & b & Ev & Ha & Hb) Hp0 Hl0 Hu]; subst.
      * apply ncname_ok in HNm; [|exact Hv]. rewrite HNm. reflexivity.
      * exfalso. apply E. rewrite !in_app_iff. right; left; right; left; left; reflexivity.
Qed.

(** ** Children *)
Lemma is_rng_true ns : is_rng ns = true <-> ns = Some rng_uri.
Proof. unfold is_rng. destruct ns as [u|]; [rewrite str_eqb_eq; split; congruence | split; discriminate]. Qed.
Definition texts_blank (kids : list xnod) : Prop := forall s, In (XTxt s) kids -> blank s.
Lemma texts_blank_cons k ks : texts_blank (k :: ks) -> texts_blank ks.
Proof. intros H s Hs. apply H. right. exact Hs. Qed.
Lemma Elements_ex kids : texts_blank kids -> Elements kids (filter is_rng_el kids).
Proof.
  induction kids as [|k ks IH]; intros H; [constructor|]. specialize (IH (texts_blank_cons _ _ H)).
  destruct k as [ns nm a sc kk|s|s|]; cbn [filter is_rng_el].
  - destruct (is_rng ns) eqn:E; [apply is_rng_true in E; subst; constructor; exact IH|]. constructor; [|exact IH]. intros ->. cbn in E. discriminate E.
  - constructor; [apply H; left; reflexivity | exact IH].
  - constructor. exact IH.
  - constructor. exact IH.
Qed.
Lemma Elements_filter kids l : Elements kids l -> l = filter is_rng_el kids.
Proof.
  induction 1; cbn [filter is_rng_el]; auto.
  - destruct (is_rng ns) eqn:E; [|assumption]. apply is_rng_true in E. congruence.
  - replace (is_rng (Some rng_uri)) with true by reflexivity. congruence.
Qed.
Lemma Elements_iff kids l : texts_blank kids -> (Elements kids l <-> filter is_rng_el kids = l).
Proof. intros H. split; [intros HE; symmetry; apply Elements_filter; exact HE | intros <-; apply Elements_ex; exact H]. Qed.
Fixpoint map_opt {A B} (f : A -> option B) (l : list A) : option (list B) :=
  match l with [] => Some [] | x :: l' => match f x, map_opt f l' with Some y, Some m => Some (y :: m) | _, _ => None end end.
Lemma each_filter {A} (f : xnod -> option A) kids : each f kids = map_opt f (filter is_rng_el kids).
Proof. induction kids as [|k ks IH]; [reflexivity|]. cbn. destruct (is_rng_el k); [cbn; rewrite <- IH; reflexivity | exact IH]. Qed.
Lemma map_opt_Forall2 {A B} (f : A -> option B) (R : A -> B -> Prop) l : (forall x, In x l -> forall y, f x = Some y <-> R x y) -> forall m, map_opt f l = Some m <-> Forall2 R l m.
Proof.
  induction l as [|x l IH]; intros H m; cbn; [split; [intros [= <-]; constructor | intros HF; inversion HF; reflexivity]|].
  specialize (IH (fun y Hy => H y (or_intror Hy))). split.
  - destruct (f x) as [y|] eqn:E; [|discriminate]. destruct (map_opt f l) as [m'|]; [|discriminate]. intros [= <-]. constructor; [apply H; [left; reflexivity | exact E] | apply IH; reflexivity].
  - intros HF. inversion HF as [|? y ? m' H1 H2]; subst. apply H in H1; [|left; reflexivity]. apply IH in H2. rewrite H1, H2. reflexivity.
Qed.
Lemma first_rest_filter {A B} (f : xnod -> option A) (g : xnod -> option B) kids :
  first_rest f g kids = match filter is_rng_el kids with [] => None | k :: ks => match f k, map_opt g ks with Some x, Some l => Some (x, l) | _, _ => None end end.
Proof. induction kids as [|k ks IH]; [reflexivity|]. cbn. destruct (is_rng_el k); [rewrite each_filter; reflexivity | exact IH]. Qed.
Lemma filter_In_kids kids k : In k (filter is_rng_el kids) -> In k kids /\ exists nm a sc ks, k = XElt (Some rng_uri) nm a sc ks.
Proof.
  rewrite filter_In. intros [H E]. split; [exact H|]. destruct k as [ns nm a sc ks| | |]; try discriminate E. cbn in E. apply is_rng_true in E. subst. eauto.
Qed.
(** ** Joining *)
Lemma Chain_fold {A} (op : A -> A -> A) l x : Chain op (x :: l) (fold_left op l x).
Proof.
  induction l as [|y l IH] using rev_ind; [constructor|]. rewrite fold_left_app. cbn. change (x :: l ++ [y]) with ((x :: l) ++ [y]). constructor. exact IH.
Qed.
Lemma Chain_inv {A} (op : A -> A -> A) l y : Chain op l y -> exists x l', l = x :: l' /\ y = fold_left op l' x.
Proof.
  induction 1 as [x|l x y H (z & l' & -> & ->)]; [exists x, []; auto|]. exists z, (l' ++ [y]). rewrite fold_left_app. auto.
Qed.
Lemma joined_ok {A} (op : A -> A -> A) l y : joined op (Some l) = Some y <-> Chain op l y.
Proof.
  split.
  - destruct l as [|x l]; [discriminate|]. intros [= <-]. apply Chain_fold.
  - intros H. apply Chain_inv in H as (x & l' & -> & ->). reflexivity.
Qed.
Lemma joined_map {A B} (f : B -> option A) op l y : joined op (map_opt f l) = Some y <-> exists m, map_opt f l = Some m /\ Chain op m y.
Proof.
  destruct (map_opt f l) as [m|]; [rewrite joined_ok; split; [intros H; exists m; auto | intros (m' & [= <-] & H); exact H]|]. split; [discriminate | intros (m & [=] & _)].
Qed.

(** ** Paths *)
Lemma slashless_rev s : slashless s -> ~ In 47%N (rev s).
Proof. intros H Hi. apply H. apply in_rev. exact Hi. Qed.
(** a directory as it is left by [path_pop] *)
Definition dirlike (d : str) : Prop := d <> [] /\ d <> lit "." /\ trim_sep (rev d) = rev d /\ ends_slash d = false.
Lemma ends_slash_app a b : b <> [] -> ends_slash (a ++ b) = ends_slash b.
Proof.
  intros H. unfold ends_slash. rewrite rev_app_distr. destruct (rev b) as [|c r] eqn:E; [|reflexivity].
  exfalso. apply H. rewrite <- (rev_involutive b), E. reflexivity.
Qed.
Lemma slashless_ends s : slashless s -> ends_slash s = false.
Proof. intros H. unfold ends_slash. destruct (rev s) as [|c r] eqn:E; [reflexivity|]. apply N.eqb_neq. intros ->. apply (slashless_rev _ H). rewrite E. left. reflexivity. Qed.
Lemma trim_sep_id r : r <> [] -> hd_error r <> Some 47%N -> (forall t, r <> 46%N :: 47%N :: t) -> trim_sep r = r.
Proof.
  destruct r as [|c r]; [congruence|]. intros _ H1 H2. cbn. destruct (N.eqb_spec c 47) as [->|H]; [cbn in H1; congruence|].
  destruct (N.eqb_spec c 46) as [->|H']; [|reflexivity]. destruct r as [|d r]; [reflexivity|]. destruct (N.eqb_spec d 47) as [->|H'']; [destruct (H2 r eq_refl) | reflexivity].
Qed.
Lemma slashless_trim s : s <> [] -> slashless s -> trim_sep (rev s) = rev s.
Proof.
  intros Hn H. apply trim_sep_id.
  - intros E. apply Hn. rewrite <- (rev_involutive s), E. reflexivity.
  - destruct (rev s) as [|c r] eqn:E; [discriminate|]. cbn. intros [= ->]. apply (slashless_rev _ H). rewrite E. left; reflexivity.
  - intros t E. apply (slashless_rev _ H). rewrite E. right; left; reflexivity.
Qed.
Lemma slashless_dirlike s : s <> [] -> s <> lit "." -> slashless s -> dirlike s.
Proof. intros H1 H2 H3. split; [exact H1|]. split; [exact H2|]. split; [apply slashless_trim; assumption | apply slashless_ends; exact H3]. Qed.
Lemma dirlike_below s d : dirlike d -> dirlike (s ++ lit "/" ++ d).
Proof.
  intros (H1 & H2 & H3 & H4). split; [destruct s; discriminate|]. split; [destruct s as [|c [|c' s]]; [discriminate|discriminate|discriminate]|]. split.
  - rewrite !rev_app_distr. destruct (rev d) as [|c r] eqn:E; [exfalso; apply H1; rewrite <- (rev_involutive d), E; reflexivity|].
    apply trim_sep_id; [discriminate| |].
    + cbn. intros [= ->]. unfold ends_slash in H4. rewrite E in H4. discriminate H4.
    + intros t. destruct r as [|c' r].
      * cbn. intros [= -> _]. apply H2. rewrite <- (rev_involutive d), E. reflexivity.
      * cbn. intros [= -> -> Et]. cbn in H3. assert (Hl : forall x, (List.length (trim_sep x) <= List.length x)%nat).
        { clear. assert (G : forall n x, (List.length x <= n)%nat -> (List.length (trim_sep x) <= List.length x)%nat).
          { induction n as [|n IH]; intros [|c x] Hx; cbn [List.length] in Hx; try lia; [cbn; lia|cbn; lia|].
            cbn. destruct (c =? 47)%N; [destruct x; [cbn; lia | transitivity (List.length (n0 :: x)); [apply IH; lia | cbn; lia]]|].
            destruct (c =? 46)%N; [|cbn; lia]. destruct x as [|d x]; [cbn; lia|]. destruct (d =? 47)%N; [|cbn; lia].
            transitivity (List.length (d :: x)); [apply IH; lia | cbn; lia]. }
          intros x. apply (G _ x (le_n _)). }
        destruct r as [|c'' r]; [discriminate H3|]. pose proof (Hl (c'' :: r)) as Hq. rewrite H3 in Hq. cbn in Hq. lia.
  - rewrite !ends_slash_app; [exact H4 | exact H1 | destruct d; discriminate].
Qed.
Lemma Segments_dir v : Segments v -> slashless v /\ v <> lit "." \/ exists d f, v = d ++ lit "/" ++ f /\ slashless f /\ f <> lit "." /\ dirlike d /\ forall r, Segments r -> Segments (d ++ lit "/" ++ r).
Proof.
  induction 1 as [s H1 H2|s r H1 H2 H3 H IH]; [left; split; assumption|]. right. destruct IH as [[IH IH']|(d & f & -> & Hf & Hf' & Hd & Hr)].
  - exists s, r. split; [reflexivity|]. split; [exact IH|]. split; [exact IH' | split; [apply slashless_dirlike; assumption | intros r'; apply Sg_more; assumption]].
  - exists (s ++ lit "/" ++ d), f. split; [rewrite <- !app_assoc; reflexivity|]. split; [exact Hf|]. split; [exact Hf'|]. split; [apply dirlike_below; exact Hd|].
    intros r' Hr'. rewrite <- !app_assoc. apply Sg_more; auto.
Qed.
Lemma drop_component_at f d : ~ In 47%N f -> drop_component (f ++ 47%N :: d) = 47%N :: d.
Proof. induction f as [|c f IH]; intros H; cbn; [reflexivity|]. destruct (N.eqb_spec c 47) as [->|Hc]; [exfalso; apply H; left; reflexivity|]. apply IH. intros Hi. apply H. right. exact Hi. Qed.
Lemma drop_component_none f : ~ In 47%N f -> drop_component f = [].
Proof. induction f as [|c f IH]; intros H; cbn; [reflexivity|]. destruct (N.eqb_spec c 47) as [->|Hc]; [exfalso; apply H; left; reflexivity|]. apply IH. intros Hi. apply H. right. exact Hi. Qed.
Lemma path_pop_below d f : slashless f -> f <> [] -> f <> lit "." -> path_pop (d ++ lit "/" ++ f) = rev (trim_sep (47%N :: rev d)).
Proof.
  intros Hf Hn Hd. unfold path_pop. assert (Et : trim_sep (rev (d ++ lit "/" ++ f)) = rev (d ++ lit "/" ++ f)).
  { rewrite !rev_app_distr. destruct (rev f) as [|c r] eqn:E; [exfalso; apply Hn; rewrite <- (rev_involutive f), E; reflexivity|].
    apply trim_sep_id; [discriminate| |].
    - cbn. intros [= ->]. apply (slashless_rev _ Hf). rewrite E. left; reflexivity.
    - intros t. destruct r as [|c' r]; cbn.
      + intros [= -> _]. apply Hd. rewrite <- (rev_involutive f), E. reflexivity.
      + intros [= -> -> _]. apply (slashless_rev _ Hf). rewrite E. right; left; reflexivity. }
  rewrite Et. rewrite !rev_app_distr. destruct (rev f) as [|c r] eqn:E; [exfalso; apply Hn; rewrite <- (rev_involutive f), E; reflexivity|].
  cbn [app]. destruct (N.eqb_spec c 47) as [->|Hc]; [exfalso; apply (slashless_rev _ Hf); rewrite E; left; reflexivity|].
  replace (c :: (r ++ rev (lit "/")) ++ rev d) with ((c :: r) ++ 47%N :: rev d) by (cbn; rewrite <- app_assoc; reflexivity).
  rewrite drop_component_at; [reflexivity|]. rewrite <- E. apply slashless_rev, Hf.
Qed.
Definition relative (new : str) : Prop := new <> [] /\ hd_error new <> Some 47%N.
Definition go_to (old new : str) : str := path_push (if ends_slash old then old else path_pop old) new.
Lemma go_to_dir d f new : (d = [] \/ dirlike d) -> slashless f -> f <> lit "." -> go_to (d ++ lit "/" ++ f) new = d ++ lit "/" ++ new.
Proof.
  intros Hd Hf Hn. unfold go_to. destruct f as [|c f].
  - rewrite !app_nil_r. replace (ends_slash (d ++ lit "/")) with true by (rewrite ends_slash_app by discriminate; reflexivity).
    unfold path_push. replace (ends_slash (d ++ lit "/")) with true by (rewrite ends_slash_app by discriminate; reflexivity). rewrite <- app_assoc.
    destruct d; reflexivity.
  - rewrite !ends_slash_app by discriminate. rewrite (slashless_ends _ Hf). rewrite path_pop_below by (try discriminate; assumption).
    destruct Hd as [->|(H1 & H2 & H3 & H4)]; [reflexivity|].
    assert (Et : trim_sep (47%N :: rev d) = rev d).
    { cbn. destruct (rev d) eqn:E; [exfalso; apply H1; rewrite <- (rev_involutive d), E; reflexivity|]. exact H3. }
    rewrite Et, rev_involutive. unfold path_push. destruct d as [|c' d]; [congruence|]. rewrite H4. reflexivity.
Qed.
Lemma go_to_file f new : f <> [] -> slashless f -> go_to f new = new.
Proof.
  intros Hn Hf. unfold go_to. rewrite slashless_ends by exact Hf. unfold path_pop. rewrite slashless_trim by assumption.
  destruct (rev f) as [|c r] eqn:E; [exfalso; apply Hn; rewrite <- (rev_involutive f), E; reflexivity|].
  destruct (N.eqb_spec c 47) as [->|Hc]; [exfalso; apply (slashless_rev _ Hf); rewrite E; left; reflexivity|].
  rewrite drop_component_none by (rewrite <- E; apply slashless_rev, Hf). reflexivity.
Qed.
Lemma resolve_path_relative o new : relative new -> resolve_path o new = Some (match o with Some old => go_to old new | None => new end).
Proof. intros [H1 H2]. unfold resolve_path, go_to. destruct new as [|c new]; [congruence|]. destruct (N.eqb_spec c 47) as [->|Hc]; [cbn in H2; congruence | reflexivity]. Qed.
Lemma resolve_path_absolute o r : resolve_path o (lit "/" ++ r) = Some (lit "/" ++ r).
Proof. reflexivity. Qed.
Lemma Merge_iff b new r : new <> [] -> (Merge b new r <-> (exists t, new = lit "/" ++ t) /\ r = new \/ relative new /\ (slashless b /\ r = new \/ exists d f, b = d ++ lit "/" ++ f /\ slashless f /\ r = d ++ lit "/" ++ new)).
Proof.
  intros Hn. split.
  - destruct 1 as [b t|d f t H1 H2 H3|f t H1 H2 H3]; [left; eauto | right | right]; (split; [split; assumption|]); [right; eauto | left; auto].
  - intros [[(t & ->) ->]|[[H1 H2] [[H3 ->]|(d & f & -> & H3 & ->)]]]; [apply Mg_absolute | apply Mg_file; assumption | apply Mg_dir; assumption].
Qed.
Lemma slash_split d f d' f' : slashless f -> slashless f' -> d ++ lit "/" ++ f = d' ++ lit "/" ++ f' -> d = d' /\ f = f'.
Proof.
  intros Hf Hf' E. assert (G : forall x y : str, ~ In 47%N x -> ~ In 47%N y -> forall p q, x ++ 47%N :: p = y ++ 47%N :: q -> x = y /\ p = q).
  { induction x as [|c x IH]; intros [|c' y] Hx Hy p q Eq; cbn in Eq.
    - injection Eq as ->. auto.
    - injection Eq as <- _. exfalso. apply Hy. left; reflexivity.
    - injection Eq as -> _. exfalso. apply Hx. left; reflexivity.
    - injection Eq as <- Eq. destruct (IH y (fun H => Hx (or_intror H)) (fun H => Hy (or_intror H)) _ _ Eq) as [-> ->]. auto. }
  assert (Er : rev f ++ 47%N :: rev d = rev f' ++ 47%N :: rev d').
  { apply (f_equal (@rev N)) in E. rewrite !rev_app_distr in E. cbn in E. rewrite <- !app_assoc in E. exact E. }
  apply G in Er as [E1 E2]; [|apply slashless_rev; assumption|apply slashless_rev; assumption].
  split; [rewrite <- (rev_involutive d), E2, rev_involutive | rewrite <- (rev_involutive f), E1, rev_involutive]; reflexivity.
Qed.
(** one step of resolution *)
Definition state (o : option str) (b : str) : Prop := o = None /\ b = [] \/ o = Some b /\ clean_path b.
Lemma head_cases (new : str) : new <> [] -> (exists t, new = lit "/" ++ t) \/ relative new.
Proof. destruct new as [|c new]; [congruence|]. intros H. destruct (N.eqb_spec c 47) as [->|Hc]; [left; exists new; reflexivity | right; split; [exact H | cbn; congruence]]. Qed.
Lemma clean_cases b : clean_path b -> slashless b /\ b <> [] \/ exists d f, b = d ++ lit "/" ++ f /\ slashless f /\ f <> lit "." /\ (d = [] \/ dirlike d) /\ forall r, r <> [] -> Segments r -> clean_path (d ++ lit "/" ++ r).
Proof.
  intros [Hn [H|(r & -> & H)]]; apply Segments_dir in H as [[H H']|(d & f & -> & Hf & Hf' & Hd & Hr)].
  - left. auto.
  - right. exists d, f. split; [reflexivity|]. split; [exact Hf|]. split; [exact Hf'|]. split; [right; exact Hd|]. intros r' Hne Hr'. split; [destruct d; discriminate | left; auto].
  - right. exists [], r. split; [reflexivity|]. split; [exact H|]. split; [exact H'|]. split; [left; reflexivity|].
    intros r' Hne Hr'. split; [discriminate | right; exists r'; auto].
  - right. exists (lit "/" ++ d), f. split; [rewrite <- !app_assoc; reflexivity|]. split; [exact Hf|]. split; [exact Hf'|]. split; [right; apply (dirlike_below [] d Hd)|].
    intros r' Hne Hr'. split; [discriminate|]. right. exists (d ++ lit "/" ++ r'). split; [rewrite <- !app_assoc; reflexivity | auto].
Qed.
Lemma resolve_step o b new r : state o b -> new <> [] -> (Merge b new r <-> resolve_path o new = Some r).
Proof.
  intros Hs Hn. rewrite Merge_iff by exact Hn. destruct (head_cases new Hn) as [(t & ->)|Hr].
  - rewrite resolve_path_absolute. split; [intros [[_ ->]|[[_ H] _]]; [reflexivity | cbn in H; congruence]|]. intros [= <-]. left. split; [exists t; reflexivity | reflexivity].
  - rewrite resolve_path_relative by exact Hr.
    assert (E : match o with Some old => go_to old new | None => new end = r <-> slashless b /\ r = new \/ exists d f, b = d ++ lit "/" ++ f /\ slashless f /\ r = d ++ lit "/" ++ new).
    { destruct Hs as [[-> ->]|[-> Hc]].
      - split; [intros <-; left; split; [intros [] | reflexivity]|]. intros [[_ ->]|(d & f & E & _)]; [reflexivity | destruct d; discriminate E].
      - apply clean_cases in Hc as [[Hb Hb']|(d & f & -> & Hf & Hf' & Hd & _)].
        + rewrite go_to_file by assumption. split; [intros <-; left; auto|]. intros [[_ ->]|(d & f & -> & _)]; [reflexivity|]. exfalso. apply Hb. rewrite !in_app_iff. right; left; left; reflexivity.
        + rewrite go_to_dir by assumption. split; [intros <-; right; exists d, f; auto|]. intros [[Hb _]|(d' & f' & E & Hf2 & ->)].
          * exfalso. apply Hb. rewrite !in_app_iff. right; left; left; reflexivity.
          * apply slash_split in E as [-> _]; [reflexivity | assumption | assumption]. }
    split.
    + intros [[(t & ->) _]|[_ H]]; [destruct Hr as [_ Hr]; cbn in Hr; congruence|]. apply E in H. congruence.
    + intros [= H]. right. split; [exact Hr|]. apply E. exact H.
Qed.
Lemma resolve_clean o b new r : state o b -> clean_path new -> resolve_path o new = Some r -> clean_path r.
Proof.
  intros Hs Hc. destruct (head_cases new (proj1 Hc)) as [(t & ->)|Hr]; [rewrite resolve_path_absolute; intros [= <-]; exact Hc|].
  rewrite resolve_path_relative by exact Hr. destruct Hs as [[-> ->]|[-> Hb]]; [intros [= <-]; exact Hc|].
  assert (HS : Segments new) by (destruct Hc as [_ [H|(t & -> & _)]]; [exact H | destruct Hr as [_ Hr]; cbn in Hr; congruence]).
  apply clean_cases in Hb as [[H1 H2]|(d & f & -> & Hf & Hf' & Hd & HC)].
  - rewrite go_to_file by assumption. intros [= <-]. exact Hc.
  - rewrite go_to_dir by assumption. intros [= <-]. apply HC; [apply Hr | exact HS].
Qed.
Lemma xml_base_ok atts v : distinct atts -> (xml_base atts = Some v <-> HasBase atts v).
Proof.
  unfold HasBase. intros Hd. induction atts as [|[ns nm w] l IH]; [split; [discriminate | intros []]|]. cbn [xml_base xa_ns xa_name xa_value].
  unfold distinct in Hd. cbn [map xa_ns xa_name] in Hd. apply NoDup_cons_iff in Hd as [Hn Hd]. specialize (IH Hd).
  destruct ((match ns with None => false | Some u => str_eqb u xml_ns end) && str_eqb nm (lit "base")) eqn:E.
  - apply andb_prop in E as [E1 E2]. destruct ns as [u|]; [|discriminate E1]. apply str_eqb_eq in E1, E2. subst. split.
    + intros [= ->]. left. reflexivity.
    + intros [H|H]; [injection H as ->; reflexivity|]. exfalso. apply Hn. apply in_map_iff. exists (XAtt (Some xml_ns) (lit "base") v). auto.
  - rewrite IH. split; [right; assumption|]. intros [H|H]; [|exact H]. exfalso. injection H as -> -> ->. rewrite !str_eqb_refl in E. discriminate E.
Qed.
Definition bases_clean (up : ups) : Prop := Forall (fun atts => forall v, HasBase atts v -> clean_path v) up.
Definition after (up : ancestry) : option str := fold_left resolve_path (rev (bases up)) None.
Lemma after_cons atts up : after (atts :: up) = match xml_base atts with Some v => resolve_path (after up) v | None => after up end.
Proof.
  unfold after, bases. cbn [flat_map]. destruct (xml_base atts); cbn [app]; [|reflexivity]. cbn [rev]. rewrite fold_left_app. reflexivity.
Qed.
Lemma Base_state up : Forall distinct up -> bases_clean up -> exists b, state (after up) b /\ forall b', Base up b' <-> b' = b.
Proof.
  intros Hd Hc. induction up as [|atts up IH].
  - exists []. split; [left; auto|]. intros b'. split; [intros H; inversion H; reflexivity | intros ->; constructor].
  - inversion Hd as [|? ? D1 D2]; subst. inversion Hc as [|? ? C1 C2]; subst. destruct (IH D2 C2) as (b & Hs & Hb). rewrite after_cons. destruct (xml_base atts) as [v|] eqn:E.
    + apply xml_base_ok in E; [|exact D1]. pose proof (C1 v E) as Hv. destruct (resolve_path (after up) v) as [r|] eqn:Er; [|unfold resolve_path in Er; discriminate Er].
      exists r. split; [right; split; [reflexivity | exact (resolve_clean _ _ _ _ Hs Hv Er)]|]. intros b'. split.
      * intros H. inversion H as [|? ? ? Hno _|? ? b0 v' r' Hv' HB HM]; subst; [destruct (Hno v E)|]. apply Hb in HB. subst b0.
        assert (Ev : v' = v) by (apply xml_base_ok in E, Hv'; [congruence | exact D1 | exact D1]). subst v'. apply (resolve_step _ _ _ _ Hs (proj1 Hv)) in HM. congruence.
      * intros ->. apply (Ba_here atts up b v); [exact E | apply Hb; reflexivity | apply (resolve_step _ _ _ _ Hs (proj1 Hv)); exact Er].
    + exists b. split; [exact Hs|]. assert (Hno : forall v, ~ HasBase atts v) by (intros v Hv; apply xml_base_ok in Hv; [congruence | exact D1]). intros b'. split.
      * intros H. inversion H as [|? ? ? _ HB|? ? b0 v' r' Hv' _ _]; subst; [apply Hb; exact HB | destruct (Hno _ Hv')].
      * intros ->. apply Ba_same; [exact Hno | apply Hb; reflexivity].
Qed.
Lemma rebase_ok up href r : Forall distinct up -> bases_clean up -> href <> [] -> (rebase_path up href = r <-> Resolved up href r).
Proof.
  intros Hd Hc Hn. destruct (Base_state up Hd Hc) as (b & Hs & Hb). unfold rebase_path, Resolved. fold (after up).
  destruct (resolve_path (after up) href) as [x|] eqn:E; [|unfold resolve_path in E; discriminate E]. cbn. split.
  - intros <-. exists b. split; [apply Hb; reflexivity | apply (resolve_step _ _ _ _ Hs Hn); exact E].
  - intros (b' & HB & HM). apply Hb in HB. subst b'. apply (resolve_step _ _ _ _ Hs Hn) in HM. congruence.
Qed.
