(** * FacetAt: which parameter of a datatype an error is about.
    The loops of datatype/xsd.rs:790-1310 go through the parameters in order and return at the first one that fails; the position in the error is
    that of this parameter ([param.0]).  Facets.v drops it; here it is recovered as the first parameter at which the loop over the parameters
    so far fails.  [facet_at_first] proves that this is the parameter at which the loop stopped. *)
From Coq Require Import String.
From Verif Require Import Base Datatype Facets.

Section At.
Variable O : oracles.
Variable C : coracles.
Definition fails {E A} (x : fres E A) : bool := match x with Ok (inr _) => true | _ => false end.
Definition failing (d : dtname) (ps : list param) : option nat := find (fun k => fails (datatype_name O C d (firstn (S k) ps))) (seq 0 (List.length ps)).

(** the loop fails at parameter [k]: with the parameters before it succeeds, with this one it fails as with all *)
Definition stops {A} {E : Type} (F : list param -> fres E A) (ps : list param) (e : E) : Prop :=
  exists k, k < List.length ps /\ (forall j, j <= k -> exists a, F (firstn j ps) = Ok (inl a)) /\ F (firstn (S k) ps) = Ok (inr e).
Lemma stops_here {A E} (F : list param -> fres E A) x ps e a : F [] = Ok (inl a) -> F [x] = Ok (inr e) -> stops F (x :: ps) e.
Proof. intros H0 H1. exists 0. split; [cbn; lia|]. split; [|exact H1]. intros j Hj. assert (j = 0) by lia. subst. eauto. Qed.
Lemma stops_next {A E} (F G : list param -> fres E A) x ps e a : F [] = Ok (inl a) -> (forall l, F (x :: l) = G l) -> stops G ps e -> stops F (x :: ps) e.
Proof.
  intros H0 HG (k & Hk & Hok & He). exists (S k). split; [cbn; lia|]. split; [|cbn [firstn]; rewrite HG; exact He].
  intros [|j] Hj; [eauto|]. cbn [firstn]. destruct (Hok j ltac:(lia)) as [b Hb]. exists b. rewrite HG. exact Hb.
Qed.
Lemma string_stops ps : forall f p e, string_facets C f p ps = Ok (inr e) -> stops (string_facets C f p) ps e.
Proof.
  induction ps as [|[n v] ps IH]; intros f p e H; [discriminate H|]. cbn [string_facets] in H.
  destruct (length_param f n v) as [r|] eqn:L.
  - destruct r as [[f'|e1]| |] eqn:E; cbn in H; try discriminate H.
    + eapply (stops_next _ (string_facets C f' p) _ _ _ _ eq_refl); [|exact (IH _ _ _ H)]. intros l. cbn [string_facets]. rewrite L. reflexivity.
    + injection H as ->. eapply (stops_here _ _ _ _ _ eq_refl). cbn [string_facets]. rewrite L. reflexivity.
  - destruct (is_name n "pattern") eqn:B.
    + destruct (c_pattern C v) as [[re|e1]| |] eqn:E; cbn in H; try discriminate H.
      * eapply (stops_next _ (string_facets C f (Some re)) _ _ _ _ eq_refl); [|exact (IH _ _ _ H)]. intros l. cbn [string_facets]. rewrite L, B, E. reflexivity.
      * injection H as ->. eapply (stops_here _ _ _ _ _ eq_refl). cbn [string_facets]. rewrite L, B, E. reflexivity.
    + injection H as <-. eapply (stops_here _ _ _ _ _ eq_refl). cbn [string_facets]. rewrite L, B. reflexivity.
Qed.
Lemma length_stops ps : forall f e, length_facets f ps = Ok (inr e) -> stops (length_facets f) ps e.
Proof.
  induction ps as [|[n v] ps IH]; intros f e H; [discriminate H|]. cbn [length_facets] in H.
  destruct (length_param f n v) as [r|] eqn:L.
  - destruct r as [[f'|e1]| |] eqn:E; cbn in H; try discriminate H.
    + eapply (stops_next _ (length_facets f') _ _ _ _ eq_refl); [|exact (IH _ _ H)]. intros l. cbn [length_facets]. rewrite L. reflexivity.
    + injection H as ->. eapply (stops_here _ _ _ _ _ eq_refl). cbn [length_facets]. rewrite L. reflexivity.
  - injection H as <-. eapply (stops_here _ _ _ _ _ eq_refl). cbn [length_facets]. rewrite L. reflexivity.
Qed.
Lemma bound_stops {T} (lt le : T -> T -> bool) pz ps : forall f p e, bound_facets C lt le pz f p ps = Ok (inr e) -> stops (bound_facets C lt le pz f p) ps e.
Proof.
  induction ps as [|[n v] ps IH]; intros f p e H; [discriminate H|]. cbn [bound_facets] in H.
  destruct (bound_param lt le pz f n v) as [r|] eqn:L.
  - destruct r as [[f'|e1]| |] eqn:E; cbn in H; try discriminate H.
    + eapply (stops_next _ (bound_facets C lt le pz f' p) _ _ _ _ eq_refl); [|exact (IH _ _ _ H)]. intros l. cbn [bound_facets]. rewrite L. reflexivity.
    + injection H as ->. eapply (stops_here _ _ _ _ _ eq_refl). cbn [bound_facets]. rewrite L. reflexivity.
  - destruct (is_name n "pattern") eqn:B.
    + destruct (c_pattern C v) as [[re|e1]| |] eqn:E; cbn in H; try discriminate H.
      * eapply (stops_next _ (bound_facets C lt le pz f (Some re)) _ _ _ _ eq_refl); [|exact (IH _ _ _ H)]. intros l. cbn [bound_facets]. rewrite L, B, E. reflexivity.
      * injection H as ->. eapply (stops_here _ _ _ _ _ eq_refl). cbn [bound_facets]. rewrite L, B, E. reflexivity.
    + injection H as <-. eapply (stops_here _ _ _ _ _ eq_refl). cbn [bound_facets]. rewrite L, B. reflexivity.
Qed.
Lemma decimal_stops ps : forall f p fd td e, decimal_facets O C f p fd td ps = Ok (inr e) -> stops (decimal_facets O C f p fd td) ps e.
Proof.
  induction ps as [|[n v] ps IH]; intros f p fd td e H; [discriminate H|]. cbn [decimal_facets] in H.
  destruct (bound_param qc_ltb qc_leb (p_decimal O) f n v) as [r|] eqn:L.
  - destruct r as [[f'|e1]| |] eqn:E; cbn in H; try discriminate H.
    + eapply (stops_next _ (decimal_facets O C f' p fd td) _ _ _ _ eq_refl); [|exact (IH _ _ _ _ _ H)]. intros l. cbn [decimal_facets]. rewrite L. reflexivity.
    + injection H as ->. eapply (stops_here _ _ _ _ _ eq_refl). cbn [decimal_facets]. rewrite L. reflexivity.
  - destruct (is_name n "pattern") eqn:B; [|destruct (is_name n "fractionDigits") eqn:B2; [|destruct (is_name n "totalDigits") eqn:B3]].
    + destruct (c_pattern C v) as [[re|e1]| |] eqn:E; cbn in H; try discriminate H.
      * eapply (stops_next _ (decimal_facets O C f (Some re) fd td) _ _ _ _ eq_refl); [|exact (IH _ _ _ _ _ H)]. intros l. cbn [decimal_facets]. rewrite L, B, E. reflexivity.
      * injection H as ->. eapply (stops_here _ _ _ _ _ eq_refl). cbn [decimal_facets]. rewrite L, B, E. reflexivity.
    + destruct (p_u16 v) as [[k|e1]| |] eqn:E; cbn in H; try discriminate H.
      * eapply (stops_next _ (decimal_facets O C f p (Some k) td) _ _ _ _ eq_refl); [|exact (IH _ _ _ _ _ H)]. intros l. cbn [decimal_facets]. rewrite L, B, B2, E. reflexivity.
      * injection H as ->. eapply (stops_here _ _ _ _ _ eq_refl). cbn [decimal_facets]. rewrite L, B, B2, E. reflexivity.
    + destruct (p_u16 v) as [[k|e1]| |] eqn:E; cbn in H; try discriminate H.
      * eapply (stops_next _ (decimal_facets O C f p fd (Some k)) _ _ _ _ eq_refl); [|exact (IH _ _ _ _ _ H)]. intros l. cbn [decimal_facets]. rewrite L, B, B2, B3, E. reflexivity.
      * injection H as ->. eapply (stops_here _ _ _ _ _ eq_refl). cbn [decimal_facets]. rewrite L, B, B2, B3, E. reflexivity.
    + injection H as <-. eapply (stops_here _ _ _ _ _ eq_refl). cbn [decimal_facets]. rewrite L, B, B2, B3. reflexivity.
Qed.
Lemma pattern_stops ps : forall p e, pattern_facets C p ps = Ok (inr e) -> stops (pattern_facets C p) ps e.
Proof.
  induction ps as [|[n v] ps IH]; intros p e H; [discriminate H|]. cbn [pattern_facets] in H.
  destruct (is_name n "pattern") eqn:B.
  - destruct (c_pattern C v) as [[re|e1]| |] eqn:E; cbn in H; try discriminate H.
    + eapply (stops_next _ (pattern_facets C (Some re)) _ _ _ _ eq_refl); [|exact (IH _ _ H)]. intros l. cbn [pattern_facets]. rewrite B, E. reflexivity.
    + injection H as ->. eapply (stops_here _ _ _ _ _ eq_refl). cbn [pattern_facets]. rewrite B, E. reflexivity.
  - injection H as <-. eapply (stops_here _ _ _ _ _ eq_refl). cbn [pattern_facets]. rewrite B. reflexivity.
Qed.
Lemma stops_map {A B E E'} (F : list param -> fres E A) (G : list param -> fres E' B) (h : E -> E') ps e :
  (forall l a, F l = Ok (inl a) -> exists b, G l = Ok (inl b)) -> (forall l e, F l = Ok (inr e) -> G l = Ok (inr (h e))) -> stops F ps e -> stops G ps (h e).
Proof. intros H1 H2 (k & Hk & Hok & He). exists k. split; [exact Hk|]. split; [|auto]. intros j Hj. destruct (Hok j Hj) as [a Ha]. eauto. Qed.
Lemma fbind_stops {A B E} (F : list param -> fres E A) (g : A -> B) ps e : (forall e, F ps = Ok (inr e) -> stops F ps e) ->
  fbind (F ps) (fun a => fok (g a)) = Ok (inr e) -> stops (fun l => fbind (F l) (fun a => fok (g a))) ps e.
Proof.
  intros HF H. destruct (F ps) as [[a|e1]| |] eqn:E1; cbn in H; try discriminate H. injection H as ->.
  apply (stops_map F _ (fun e => e)); [| |exact (HF _ eq_refl)]; intros l x Hx; rewrite Hx; cbn; [eexists; reflexivity | reflexivity].
Qed.
Lemma pair_eta {A B D} (x : fres facet_error (A * B)) (g : A -> B -> D) : fbind x (fun '(a, b) => fok (g a b)) = fbind x (fun y => fok (g (fst y) (snd y))).
Proof. destruct x as [[[a b]|e]| |]; reflexivity. Qed.
Lemma stops_ext {A E} (F G : list param -> fres E A) ps e : (forall l, F l = G l) -> stops F ps e -> stops G ps e.
Proof. intros H (k & Hk & Hok & He). exists k. split; [exact Hk|]. split; [|rewrite <- H; exact He]. intros j Hj. destruct (Hok j Hj) as [a Ha]. exists a. rewrite <- H. exact Ha. Qed.
Definition stopping (F : list param -> fres facet_error xsd_type) : Prop := forall ps e, F ps = Ok (inr e) -> stops F ps e.
Lemma int_stopping pz mk : stopping (int_type C pz mk).
Proof.
  intros ps e H. unfold int_type in *. rewrite pair_eta in H. eapply stops_ext; [intros l; symmetry; apply pair_eta|].
  refine (fbind_stops _ _ _ _ (fun e => bound_stops _ _ _ _ _ _ e) H).
Qed.
Lemma double_stopping : stopping (double_type C).
Proof.
  intros ps e H. unfold double_type in *. rewrite (pair_eta _ (fun _ p => XDouble p)) in H. eapply stops_ext; [intros l; symmetry; apply (pair_eta _ (fun _ p => XDouble p))|].
  refine (fbind_stops _ (fun y => XDouble (snd y)) _ _ (fun e => bound_stops _ _ _ _ _ _ e) H).
Qed.
Lemma str_stopping mk : stopping (str_type C mk).
Proof.
  intros ps e H. unfold str_type in *. rewrite pair_eta in H. eapply stops_ext; [intros l; symmetry; apply pair_eta|].
  refine (fbind_stops _ _ _ _ (fun e => string_stops _ _ _ e) H).
Qed.
Lemma len_stopping mk : stopping (len_type mk).
Proof. intros ps e H. exact (fbind_stops _ _ _ _ (fun e => length_stops _ _ e) H). Qed.
Lemma pat_stopping mk : stopping (pat_type C mk).
Proof. intros ps e H. exact (fbind_stops _ _ _ _ (fun e => pattern_stops _ _ e) H). Qed.
Lemma table_stopping : Forall (fun x => stopping (snd x)) (facet_table O C).
Proof.
  unfold facet_table. repeat (constructor; [cbn [snd]; first [apply int_stopping | apply str_stopping | apply len_stopping | apply pat_stopping | apply double_stopping | (intros ps e H; exact (decimal_stops _ _ _ _ _ _ H))]|]). constructor.
Qed.
Lemma find_entry_in {A} n (l : list (string * A)) a : find_entry n l = Some a -> exists k, In (k, a) l.
Proof. induction l as [|[k b] l IH]; cbn; intros H; [discriminate H|]. destruct (is_name n k); [injection H as ->; eauto|]. destruct (IH H) as [k' Hk']. eauto. Qed.
Theorem facet_stops d ps fe : datatype_name O C d ps = Ok (inr (DFacet fe)) -> stops (datatype_name O C d) ps (DFacet fe).
Proof.
  intros H.
  assert (K : forall l, xsd_compile O C l ps = Ok (inr (DFacet fe)) -> stops (fun ps => fbind (xsd_compile O C l ps) (fun t => fok (DXsd t))) ps (DFacet fe)).
  { intros l Hl. unfold xsd_compile in *. destruct (find_entry l (facet_table O C)) as [F|] eqn:E; [|discriminate Hl]. apply find_entry_in in E. destruct E as [k Hk].
    pose proof (proj1 (Forall_forall _ _) table_stopping _ Hk) as HS. cbn [snd] in HS.
    destruct (F ps) as [[a|e1]| |] eqn:E1; cbn in Hl; try discriminate Hl. injection Hl as ->.
    eapply (stops_map F _ DFacet); [| |exact (HS _ _ E1)]; intros q x Hx; rewrite Hx; cbn; [eexists; reflexivity | reflexivity]. }
  assert (NR : forall n, relax_name n ps <> Ok (inr (DFacet fe))).
  { intros n Hn. unfold relax_name in Hn. destruct ps as [|[k v] ps']; [|discriminate Hn]. destruct n; try discriminate Hn. destruct (is_name local "string"); [discriminate Hn|]. destruct (is_name local "token"); discriminate Hn. }
  destruct d as [| |u l|u l]; cbn [datatype_name] in *; [destruct (NR _ H) | destruct (NR _ H) | |].
  - destruct (str_eqb u []) eqn:E1; [destruct (NR _ H)|]. destruct (str_eqb u xsd_uri) eqn:E2; [|discriminate H]. cbn [xsd_name] in *.
    destruct (xsd_compile O C l ps) as [[t|e1]| |] eqn:E; cbn in H; try discriminate H. injection H as ->. eapply stops_ext; [|exact (K l E)]. intros q. cbn [datatype_name]. rewrite E1, E2. reflexivity.
  - destruct (str_eqb u []); [destruct (NR _ H)|]. destruct (str_eqb u xsd_uri); discriminate H.
Qed.
Lemma find_first (f : nat -> bool) a n k : k < n -> (forall j, j < k -> f (a + j) = false) -> f (a + k) = true -> find f (seq a n) = Some (a + k).
Proof.
  revert a k. induction n as [|n IH]; intros a k Hk Hj Hf; [lia|]. cbn [seq find]. destruct k as [|k].
  - rewrite Nat.add_0_r in *. rewrite Hf. reflexivity.
  - pose proof (Hj 0 ltac:(lia)) as H0. rewrite Nat.add_0_r in H0. rewrite H0. rewrite (IH (S a) k); [f_equal; lia | lia | | rewrite <- Hf; f_equal; lia].
    intros j Hj'. rewrite <- (Hj (S j)) by lia. f_equal. lia.
Qed.
(** [failing] is the parameter at which the loop stopped *)
Theorem facet_at_first d ps fe : datatype_name O C d ps = Ok (inr (DFacet fe)) ->
  exists k, failing d ps = Some k /\ k < List.length ps /\ (forall j, j <= k -> exists a, datatype_name O C d (firstn j ps) = Ok (inl a)) /\ datatype_name O C d (firstn (S k) ps) = Ok (inr (DFacet fe)).
Proof.
  intros H. destruct (facet_stops _ _ _ H) as (k & Hk & Hok & He). exists k. split; [|auto]. unfold failing. rewrite (find_first _ 0 _ k Hk); [reflexivity| |cbn [Nat.add]; rewrite He; reflexivity].
  intros j Hj. cbn [Nat.add]. destruct (Hok (S j) ltac:(lia)) as [a Ha]. rewrite Ha. reflexivity.
Qed.
End At.
