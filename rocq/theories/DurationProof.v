(** * DurationProof: the regular expression of xsd:duration and DurationSpec.v (C40). *)
From Coq Require Import String QArith Qcanon.
From Verif Require Import Base Regex Datatype Facets Spec Words DatatypeSpec DatatypeProof DatatypeProof2 DatatypeMain DurationSpec.
Open Scope N_scope.

Lemma two_spec a b (p q : N -> Prop) s : (forall c, a c = true <-> p c) -> (forall c, b c = true <-> q c) -> (rlang (RSeq (RChar a) (RChar b)) s <-> two p q s).
Proof.
  intros Ha Hb. rewrite rlang_seq_inv. unfold two. split.
  - intros (u & v & -> & Hu & Hv). apply rlang_char_inv in Hu as (x & -> & Hx). apply rlang_char_inv in Hv as (y & -> & Hy). exists x, y. split; [reflexivity|]. split; [apply Ha | apply Hb]; assumption.
  - intros (x & y & -> & Hx & Hy). exists [x], [y]. split; [reflexivity|]. split; constructor; [apply Ha | apply Hb]; assumption.
Qed.
Lemma range_spec a b c : range a b c = true <-> between a b c.
Proof. unfold range, between. rewrite andb_true_iff, !N.leb_le. tauto. Qed.
Lemma eqb_spec a c : N.eqb a c = true <-> a = c.
Proof. apply N.eqb_eq. Qed.
Lemma any_digit d c : d c = true <-> (fun c : N => d c = true) c.
Proof. tauto. Qed.
Lemma lit_spec l s : rlang (rlit l) s <-> s = l.
Proof.
  revert s. induction l as [|c l IH]; intros s; [apply rlang_eps_inv|]. cbn [rlit]. destruct l as [|c' l]; [apply ch_spec|]. rewrite rlang_seq_inv. split.
  - intros (u & v & -> & Hu & Hv). apply ch_spec in Hu. apply IH in Hv. subst. reflexivity.
  - intros ->. exists [c], (c' :: l). split; [reflexivity|]. split; [apply ch_spec; reflexivity | apply IH; reflexivity].
Qed.
Lemma maybe_spec c s : rlang (ropt (ch c)) s <-> maybe c s.
Proof. unfold ropt, maybe. rewrite rlang_alt_inv, ch_spec, rlang_eps_inv. tauto. Qed.
Lemma month_spec s : rlang (ralts [RSeq (ch 48) (RChar (range 49 57)); rlit [49; 49]%N; rlit [49; 50]%N]) s <-> Month s.
Proof. cbn [ralts]. rewrite !rlang_alt_inv, !lit_spec. unfold ch. rewrite (two_spec _ _ (eq 48) (between 49 57) _ (eqb_spec 48) (range_spec 49 57)). unfold Month. reflexivity. Qed.
Lemma day_spec d s : rlang (ralts [RSeq (RChar (range 48 50)) (RChar d); rlit [51; 48]%N; rlit [51; 49]%N]) s <-> Day (fun c => d c = true) s.
Proof. cbn [ralts]. rewrite !rlang_alt_inv, !lit_spec. rewrite (two_spec _ _ (between 48 50) (fun c => d c = true) _ (range_spec 48 50) (any_digit d)). unfold Day. reflexivity. Qed.
Lemma clock_spec s : rlang (ralts [rseqs [RAlt (RSeq (RChar (range 48 49)) (RChar adigit)) (RSeq (ch 50) (RChar (range 48 51)));
                       ropt (ch 58); RSeq (RChar (range 48 53)) (RChar adigit); ropt (ch 58);
                       RAlt (RSeq (RChar (range 48 53)) (RChar adigit)) (rlit [54; 48]%N)];
                rlit [50; 52; 48; 48]%N; rlit [50; 52; 58; 48; 48]%N]) s <-> Clock s.
Proof.
  cbn [ralts]. rewrite !rlang_alt_inv, !lit_spec. unfold Clock. cbn [rseqs].
  assert (Hh : forall h, rlang (RAlt (RSeq (RChar (range 48 49)) (RChar adigit)) (RSeq (ch 50) (RChar (range 48 51)))) h <-> two (between 48 49) (between 48 57) h \/ two (eq 50) (between 48 51) h).
  { intros h. rewrite rlang_alt_inv. unfold ch, adigit. rewrite (two_spec _ _ _ _ _ (range_spec 48 49) (range_spec 48 57)), (two_spec _ _ _ _ _ (eqb_spec 50) (range_spec 48 51)). tauto. }
  assert (Hm : forall m, rlang (RSeq (RChar (range 48 53)) (RChar adigit)) m <-> two (between 48 53) (between 48 57) m) by (intros m; apply two_spec; apply range_spec).
  assert (He : forall e, rlang (RAlt (RSeq (RChar (range 48 53)) (RChar adigit)) (rlit [54; 48]%N)) e <-> two (between 48 53) (between 48 57) e \/ e = lit "60") by (intros e; rewrite rlang_alt_inv, Hm, lit_spec; reflexivity).
  match goal with |- (?A \/ _) <-> (?B \/ _) => assert (H : A <-> B); [|rewrite H; reflexivity] end.
  split.
  - intros H. apply rlang_seq_inv in H as (h & ? & -> & K1 & H). apply rlang_seq_inv in H as (c1 & ? & -> & K2 & H). apply rlang_seq_inv in H as (m & ? & -> & K3 & H). apply rlang_seq_inv in H as (c2 & e & -> & K4 & K5).
    exists h, c1, m, c2, e. split; [reflexivity|]. split; [apply Hh; exact K1|]. split; [apply maybe_spec; exact K2|]. split; [apply Hm; exact K3|]. split; [apply maybe_spec; exact K4 | apply He; exact K5].
  - intros (h & c1 & m & c2 & e & -> & K1 & K2 & K3 & K4 & K5). constructor; [apply Hh; exact K1|]. constructor; [apply maybe_spec; exact K2|]. constructor; [apply Hm; exact K3|]. constructor; [apply maybe_spec; exact K4 | apply He; exact K5].
Qed.
Lemma moment_spec d s : rlang (duration_alt d) s <-> Moment (fun c => d c = true) s.
Proof.
  unfold duration_alt, Moment. change (rseqs ?l) with (rseqs l). cbn [rseqs]. split.
  - intros H. apply rlang_seq_inv in H as (y & ? & -> & K1 & H). apply rlang_seq_inv in H as (h1 & ? & -> & K2 & H). apply rlang_seq_inv in H as (mo & ? & -> & K3 & H). apply rlang_seq_inv in H as (h2 & ? & -> & K4 & H).
    apply rlang_seq_inv in H as (da & ? & -> & K5 & H). apply rlang_seq_inv in H as (c & ti & -> & K6 & K7). apply ch_spec in K6. subst c.
    exists y, h1, mo, h2, da, ti. split; [reflexivity|]. split; [apply rep_spec; exact K1|]. split; [apply maybe_spec; exact K2|]. split; [apply month_spec; exact K3|]. split; [apply maybe_spec; exact K4|]. split; [apply day_spec; exact K5 | apply clock_spec; exact K7].
  - intros (y & h1 & mo & h2 & da & ti & -> & K1 & K2 & K3 & K4 & K5 & K6). constructor; [apply rep_spec; exact K1|]. constructor; [apply maybe_spec; exact K2|]. constructor; [apply month_spec; exact K3|].
    constructor; [apply maybe_spec; exact K4|]. constructor; [apply day_spec; exact K5|]. constructor; [apply ch_spec; reflexivity | apply clock_spec; exact K6].
Qed.
Lemma body_start s : (exists a b, s = a ++ b /\ rlang duration_body a) <-> exists r, s = 80 :: r.
Proof.
  split.
  - intros (a & b & -> & H). unfold duration_body in H. cbn [rseqs] in H. apply rlang_seq_inv in H as (u & v & -> & Hu & _). apply ch_spec in Hu. subst u. eexists. reflexivity.
  - intros (r & ->). exists [80], r. split; [reflexivity|]. unfold duration_body. cbn [rseqs]. change [80] with ([80] ++ [] : str). constructor; [apply ch_spec; reflexivity|].
    repeat (change (@nil N) with ([] ++ [] : str); constructor; [apply rl_altr; constructor|]). apply rl_altr. constructor.
Qed.
Theorem duration_exact O C ps d : compiles O C "duration" ps d -> exists q, Last_pattern ps q /\ forall s,
  fits O d s <-> ((exists r, s = 80 :: r) \/ (exists a b, s = a ++ b /\ Moment (fun c => o_unicode_digit O c = true) b)) /\ pattern_holds O q s.
Proof.
  intros H. destruct (main_duration_exact O C ps d H) as (q & HL & K). exists q. split; [exact HL|]. intros s. rewrite K, body_start.
  assert (E : (exists a b, s = a ++ b /\ rlang (duration_alt (o_unicode_digit O)) b) <-> exists a b, s = a ++ b /\ Moment (fun c => o_unicode_digit O c = true) b).
  { split; intros (a & b & E & Hb); exists a, b; (split; [exact E|]); apply moment_spec; exact Hb. }
  rewrite E. reflexivity.
Qed.
