(** * Regex: the regular expressions hard-wired in relaxng-model/src/datatype/xsd.rs:31-35,
    with a boolean matcher (Brzozowski derivatives) proved equal to their language. *)
From Verif Require Import Base.

Inductive regex : Type :=
| RNone                       (* no string *)
| REps                        (* the empty string *)
| RChar (cls : N -> bool)     (* one character of a class *)
| RSeq (a b : regex)
| RAlt (a b : regex)
| RStar (a : regex).

(** Language of a regular expression. *)
Inductive rlang : regex -> str -> Prop :=
| rl_eps : rlang REps []
| rl_char cls c : cls c = true -> rlang (RChar cls) [c]
| rl_seq a b s t : rlang a s -> rlang b t -> rlang (RSeq a b) (s ++ t)
| rl_altl a b s : rlang a s -> rlang (RAlt a b) s
| rl_altr a b s : rlang b s -> rlang (RAlt a b) s
| rl_star0 a : rlang (RStar a) []
| rl_star1 a s t : rlang a s -> rlang (RStar a) t -> rlang (RStar a) (s ++ t).

Fixpoint rnull (r : regex) : bool :=
  match r with
  | RNone => false | REps => true | RChar _ => false
  | RSeq a b => rnull a && rnull b
  | RAlt a b => rnull a || rnull b
  | RStar _ => true
  end.
(** Simplifying constructors, only to keep computed derivatives small. *)
Definition rseq (a b : regex) : regex :=
  match a, b with RNone, _ => RNone | _, RNone => RNone | REps, x => x | x, y => RSeq x y end.
Definition ralt (a b : regex) : regex :=
  match a, b with RNone, x => x | x, RNone => x | x, y => RAlt x y end.
Fixpoint rder (c : N) (r : regex) : regex :=
  match r with
  | RNone => RNone | REps => RNone
  | RChar cls => if cls c then REps else RNone
  | RSeq a b => if rnull a then ralt (rseq (rder c a) b) (rder c b) else rseq (rder c a) b
  | RAlt a b => ralt (rder c a) (rder c b)
  | RStar a => rseq (rder c a) (RStar a)
  end.
Fixpoint rmatch (r : regex) (s : str) : bool :=
  match s with [] => rnull r | c :: s' => rmatch (rder c r) s' end.

Lemma rlang_seq_inv a b s : rlang (RSeq a b) s <-> exists u v, s = u ++ v /\ rlang a u /\ rlang b v.
Proof.
  split.
  - intros H; inversion H; subst; eauto.
  - intros (u & v & -> & Hu & Hv); constructor; assumption.
Qed.
Lemma rlang_alt_inv a b s : rlang (RAlt a b) s <-> rlang a s \/ rlang b s.
Proof.
  split.
  - intros H; inversion H; subst; auto.
  - intros [H|H]; [apply rl_altl | apply rl_altr]; assumption.
Qed.
Lemma rlang_none s : ~ rlang RNone s.
Proof. intros H; inversion H. Qed.
Lemma rlang_eps_inv s : rlang REps s <-> s = [].
Proof. split; [intros H; inversion H; reflexivity | intros ->; constructor]. Qed.
Lemma rlang_char_inv cls s : rlang (RChar cls) s <-> exists c, s = [c] /\ cls c = true.
Proof. split; [intros H; inversion H; subst; eauto | intros (c & -> & H); constructor; exact H]. Qed.

Lemma rseq_spec a b s : rlang (rseq a b) s <-> rlang (RSeq a b) s.
Proof.
  rewrite rlang_seq_inv.
  assert (Hn : forall b' , rlang RNone s <-> exists u v, s = u ++ v /\ rlang RNone u /\ rlang b' v).
  { intros b'; split; [intros H; inversion H | intros (u & v & _ & H & _); inversion H]. }
  assert (Hn2 : forall a' , rlang RNone s <-> exists u v, s = u ++ v /\ rlang a' u /\ rlang RNone v).
  { intros a'; split; [intros H; inversion H | intros (u & v & _ & _ & H); inversion H]. }
  assert (He : forall b', rlang b' s <-> exists u v, s = u ++ v /\ rlang REps u /\ rlang b' v).
  { intros b'; split.
    - intros H; exists [], s; repeat split; [constructor | exact H].
    - intros (u & v & -> & H & Hv); inversion H; subst; exact Hv. }
  destruct a; cbn [rseq]; try apply Hn;
    destruct b; try apply Hn2; try apply He; apply rlang_seq_inv.
Qed.
Lemma ralt_spec a b s : rlang (ralt a b) s <-> rlang (RAlt a b) s.
Proof.
  rewrite rlang_alt_inv.
  assert (N1 : forall b', rlang b' s <-> rlang RNone s \/ rlang b' s).
  { intros b'; split; [auto | intros [H|H]; [inversion H | exact H]]. }
  assert (N2 : forall b', rlang b' s <-> rlang b' s \/ rlang RNone s).
  { intros b'; split; [auto | intros [H|H]; [exact H | inversion H]]. }
  destruct a; cbn [ralt]; try apply N1; destruct b; try apply N2; try apply rlang_alt_inv.
Qed.

Lemma rnull_spec r : rnull r = true <-> rlang r [].
Proof.
  induction r as [| |cls|a IHa b IHb|a IHa b IHb|a IHa]; cbn [rnull].
  - split; [discriminate | intros H; inversion H].
  - split; [constructor | reflexivity].
  - split; [discriminate | intros H; inversion H].
  - rewrite andb_true_iff, IHa, IHb, rlang_seq_inv; split.
    + intros [Ha Hb]; exists [], []; auto.
    + intros (u & v & E & Ha & Hb); symmetry in E; apply app_eq_nil in E; destruct E; subst; auto.
  - rewrite orb_true_iff, IHa, IHb, rlang_alt_inv; reflexivity.
  - split; [constructor | reflexivity].
Qed.

Lemma rlang_star_cons a c s : rlang (RStar a) (c :: s) ->
  exists u v, s = u ++ v /\ rlang a (c :: u) /\ rlang (RStar a) v.
Proof.
  remember (RStar a) as r eqn:Er; remember (c :: s) as t eqn:Et.
  intros H; revert Er c s Et; induction H as [| | | | | |a' u v Hu IHu Hv IHv]; intros Er c0 s0 Et;
    try discriminate.
  injection Er as ->.
  destruct u as [|x u].
  - cbn in Et; subst v. apply (IHv eq_refl _ _ eq_refl).
  - cbn in Et; injection Et as -> <-. exists u, v; auto.
Qed.

Lemma rder_spec c r s : rlang (rder c r) s <-> rlang r (c :: s).
Proof.
  revert s; induction r as [| |cls|a IHa b IHb|a IHa b IHb|a IHa]; intros s; cbn [rder].
  - split; intros H; inversion H.
  - split; intros H; inversion H.
  - rewrite rlang_char_inv. destruct (cls c) eqn:Ec.
    + rewrite rlang_eps_inv; split; [intros ->; eauto | intros (x & E & _); congruence].
    + split; [intros H; inversion H | intros (x & E & Hx); injection E as -> ->; congruence].
  - rewrite rlang_seq_inv.
    assert (A : rlang (rseq (rder c a) b) s <-> exists u v, s = u ++ v /\ rlang a (c :: u) /\ rlang b v).
    { rewrite rseq_spec, rlang_seq_inv; split; intros (u & v & E & Hu & Hv); exists u, v;
        (split; [exact E | split; [apply IHa; exact Hu | exact Hv]]). }
    destruct (rnull a) eqn:En.
    + apply rnull_spec in En. rewrite ralt_spec, rlang_alt_inv, A, IHb; split.
      * intros [(u & v & -> & Hu & Hv) | H]; [exists (c :: u), v; auto | exists [], (c :: s); auto].
      * intros (u & v & E & Hu & Hv); destruct u as [|x u]; cbn in E.
        -- right; subst v; exact Hv.
        -- left; injection E as -> ->; exists u, v; auto.
    + rewrite A; split.
      * intros (u & v & -> & Hu & Hv); exists (c :: u), v; auto.
      * intros (u & v & E & Hu & Hv); destruct u as [|x u]; cbn in E.
        -- apply rnull_spec in Hu; congruence.
        -- injection E as -> ->; exists u, v; auto.
  - rewrite ralt_spec, !rlang_alt_inv, IHa, IHb; reflexivity.
  - rewrite rseq_spec, rlang_seq_inv; split.
    + intros (u & v & -> & Hu & Hv); apply IHa in Hu; apply (rl_star1 a (c :: u) v); assumption.
    + intros H; apply rlang_star_cons in H; destruct H as (u & v & -> & Hu & Hv).
      exists u, v; repeat split; [apply IHa; exact Hu | exact Hv].
Qed.

Theorem rmatch_spec r s : rmatch r s = true <-> rlang r s.
Proof.
  revert r; induction s as [|c s IH]; intros r; cbn [rmatch].
  - apply rnull_spec.
  - rewrite IH; apply rder_spec.
Qed.

(** ** Derived forms used to transcribe the three expressions. *)
Definition ch (c : N) : regex := RChar (N.eqb c).
Definition range (a b : N) : N -> bool := fun c => ((a <=? c) && (c <=? b))%N.
Definition one_of (l : list N) : N -> bool := fun c => existsb (N.eqb c) l.
Definition any : regex := RChar (fun _ => true).
Definition ropt (r : regex) : regex := RAlt r REps.
Definition rplus (r : regex) : regex := RSeq r (RStar r).
Fixpoint rrep (n : nat) (r : regex) : regex :=       (* r{n} *)
  match n with 0 => REps | S n' => RSeq r (rrep n' r) end.
Fixpoint rupto (n : nat) (r : regex) : regex :=      (* r{0,n} *)
  match n with 0 => REps | S n' => ropt (RSeq r (rupto n' r)) end.
Fixpoint rseqs (l : list regex) : regex :=
  match l with [] => REps | [r] => r | r :: l' => RSeq r (rseqs l') end.
Fixpoint ralts (l : list regex) : regex :=
  match l with [] => RNone | [r] => r | r :: l' => RAlt r (ralts l') end.
Fixpoint rlit (s : str) : regex :=
  match s with [] => REps | [c] => ch c | c :: s' => RSeq (ch c) (rlit s') end.

Definition alpha (c : N) : bool := range 97 122 c || range 65 90 c.
Definition adigit : N -> bool := range 48 57.
Definition alnum (c : N) : bool := alpha c || adigit c.

(** xsd.rs:32 [LANG_RE] = "^[a-zA-Z]{1,8}(-[a-zA-Z0-9]{1,8})*$" (both anchors: whole string). *)
Definition lang_re : regex :=
  RSeq (RSeq (RChar alpha) (rupto 7 (RChar alpha)))
       (RStar (RSeq (ch 45) (RSeq (RChar alnum) (rupto 7 (RChar alnum))))).

(** xsd.rs:33 [DATETIME_RE]
    = "^-?\d{4}-\d{2}-\d{2}T\d{2}:\d{2}:\d{2}(?:Z(?:(?:\+|-)\d{2}:\d{2})?)?$".
    [d] is the engine's Unicode-aware [\d]. *)
Definition datetime_re (d : N -> bool) : regex :=
  rseqs [ropt (ch 45); rrep 4 (RChar d); ch 45; rrep 2 (RChar d); ch 45; rrep 2 (RChar d);
         ch 84; rrep 2 (RChar d); ch 58; rrep 2 (RChar d); ch 58; rrep 2 (RChar d);
         ropt (RSeq (ch 90) (ropt (rseqs [RAlt (ch 43) (ch 45); rrep 2 (RChar d); ch 58; rrep 2 (RChar d)])))].

(** xsd.rs:34 [DURATION_RE] = "^P(...)|...$".  Alternation binds weaker than concatenation and
    anchors, so this is (^P...) | (...$): the first branch is anchored only at the start, the
    second only at the end; [Regex::is_match] searches anywhere.  [num u] is
    "[0-9]+" followed optionally by "[.,][0-9]*", then "u". *)
Definition dnum (u : N) : regex :=
  rseqs [rplus (RChar adigit); ropt (RSeq (RChar (one_of [46; 44]%N)) (RStar (RChar adigit))); ch u].
Definition duration_body : regex :=
  rseqs [ch 80; ropt (dnum 89); ropt (dnum 77); ropt (dnum 68); ropt (ch 84);
         ropt (dnum 72); ropt (dnum 77); ropt (dnum 83)].
Definition duration_alt (d : N -> bool) : regex :=
  rseqs [rrep 4 (RChar d); ropt (ch 45);
         ralts [RSeq (ch 48) (RChar (range 49 57)); rlit [49; 49]%N; rlit [49; 50]%N];
         ropt (ch 45);
         ralts [RSeq (RChar (range 48 50)) (RChar d); rlit [51; 48]%N; rlit [51; 49]%N];
         ch 84;
         ralts [rseqs [RAlt (RSeq (RChar (range 48 49)) (RChar adigit)) (RSeq (ch 50) (RChar (range 48 51)));
                       ropt (ch 58); RSeq (RChar (range 48 53)) (RChar adigit); ropt (ch 58);
                       RAlt (RSeq (RChar (range 48 53)) (RChar adigit)) (rlit [54; 48]%N)];
                rlit [50; 52; 48; 48]%N; rlit [50; 52; 58; 48; 48]%N]].
(** What [DURATION_RE.is_match] decides: first branch then anything, or anything then second. *)
Definition duration_search (d : N -> bool) : regex :=
  RAlt (RSeq duration_body (RStar any)) (RSeq (RStar any) (duration_alt d)).
