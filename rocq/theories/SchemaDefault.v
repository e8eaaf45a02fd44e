(** * SchemaDefault: which declarations the schema compiler looks at (C41). *)
From Coq Require Import String.
From Verif Require Import Base Datatype Facets Store Lang Compile Syntax SchemaCompile SourceSpec SourceScope SourceCompile SchemaMain SchemaSpec SchemaVisit Spec.

(** a schema without its default namespace: [default namespace = u] is dropped, [default namespace p = u] declares [p] only *)
Definition undefault_decl (d : decl) : list decl :=
  match d with
  | DDefault None (UUri _) => []
  | DDefault (Some p) u => [DNamespace p u]
  | _ => [d]
  end.
Definition undefault (s : schema) : schema := Schema (flat_map undefault_decl (s_decls s)) (s_top s).
Definition undefaulted (fs : filesys) : filesys := fun f => match fs f with inl s => inl (undefault s) | inr e => inr e end.

Section Same.
Variable O : oracles.
Variable C : coracles.
Variables fs fs' : filesys.
Definition alike (s s' : schema) : Prop := s_top s = s_top s' /\ forall c st, compile_declarations c (s_decls s) st = compile_declarations c (s_decls s') st.
Hypothesis same : forall f, match fs f, fs' f with inl s, inl s' => alike s s' | inr e, inr e' => e = e' | _, _ => False end.
Lemma eq_bind {A B} (m m' : CM A) (f f' : A -> CM B) st : m st = m' st -> (forall a st', f a st' = f' a st') -> cbind m f st = cbind m' f' st.
Proof. intros H K. unfold cbind. rewrite H. destruct (m' st) as [[[a st']|e]|p|]; cbn; try reflexivity. apply K. Qed.
Lemma eq_cmap {A} g (m m' : CM A) st : m st = m' st -> cmap_err g m st = cmap_err g m' st.
Proof. intros H. unfold cmap_err. rewrite H. reflexivity. Qed.
Lemma eq_citer {A} (f f' : A -> CM unit) l : Forall (fun x => forall st, f x st = f' x st) l -> forall st, citer f l st = citer f' l st.
Proof. induction 1 as [|x l Hx _ IH]; intros st; cbn [citer]; [reflexivity|]. apply eq_bind; auto. Qed.
Lemma eq_load {B} f (k k' : schema -> CM B) st : (forall s s' st, alike s s' -> k s st = k' s' st) ->
  cbind (get_schema fs f) k st = cbind (get_schema fs' f) k' st.
Proof.
  intros H. pose proof (same f) as Hf. unfold cbind, get_schema. destruct (fs f), (fs' f); try contradiction; cbn; [apply H; exact Hf | congruence].
Qed.
Lemma eq_load_map {B} g f (k k' : schema -> CM B) st : (forall s s' st, alike s s' -> k s st = k' s' st) ->
  cbind (cmap_err g (get_schema fs f)) k st = cbind (cmap_err g (get_schema fs' f)) k' st.
Proof.
  intros H. pose proof (same f) as Hf. unfold cbind, cmap_err, get_schema. destruct (fs f), (fs' f); try contradiction; cbn; [apply H; exact Hf | congruence].
Qed.
Section Rec.
Variables (rp rp' : ctx -> spat -> CM mpat) (ri ri' : ctx -> list gcontent -> CM unit).
Hypothesis Hp : forall c p st, rp c p st = rp' c p st.
Hypothesis Hi : forall c l st, ri c l st = ri' c l st.
Notation P1 := (compile_pattern O C fs rp ri).
Notation P2 := (compile_pattern O C fs' rp' ri').
Notation G1 := (compile_content O C fs rp ri).
Notation G2 := (compile_content O C fs' rp' ri').
Notation V1 := (compile_override O C fs rp ri).
Notation V2 := (compile_override O C fs' rp' ri').
Lemma eq_schema c s s' st (cp cp' : ctx -> spat -> CM mpat) (ci ci' : ctx -> list gcontent -> CM unit) : alike s s' ->
  (forall c p st, cp c p st = cp' c p st) -> (forall c l st, ci c l st = ci' c l st) -> compile_schema_with cp ci c s st = compile_schema_with cp' ci' c s' st.
Proof.
  intros [Ht Hd] Hcp Hci. unfold compile_schema_with. apply eq_bind; [apply Hd|]. intros c' st'. rewrite <- Ht. destruct (s_top s) as [p|l].
  - destruct (is_include c').
    + destruct p; try reflexivity. apply eq_bind; [apply Hci | reflexivity].
    + apply eq_bind; [apply Hcp | reflexivity].
  - apply eq_bind; [apply Hci | reflexivity].
Qed.
Lemma same_all : (forall p, forall c st, P1 c p st = P2 c p st) /\ (forall g, forall c st, G1 c g st = G2 c g st).
Proof.
  assert (H_ex : forall h i, forall c st, P1 c (SExternal h i) st = P2 c (SExternal h i) st).
  { intros h i c st. cbn [SchemaCompile.compile_pattern]. destruct i; [reflexivity|]. apply eq_bind; [reflexivity|]. intros f st1. apply eq_load_map. intros s s' st2 [Ht _].
    apply eq_bind; [reflexivity|]. intros inc st3. rewrite <- Ht. destruct (s_top s); [apply eq_cmap, Hp|]. apply eq_bind; [reflexivity|]. intros. apply eq_bind; [apply Hi | reflexivity]. }
  assert (H_gr : forall l, Forall (fun g => forall c st, G1 c g st = G2 c g st) l -> forall c st, P1 c (SGrammar l) st = P2 c (SGrammar l) st).
  { intros l Hl c st. cbn [SchemaCompile.compile_pattern]. apply eq_bind; [reflexivity|]. intros g st1. apply eq_bind; [|reflexivity].
    apply eq_citer. eapply Forall_impl; [|exact Hl]. cbn. auto. }
  assert (H_da : forall n ps ex, (match ex with Some e => forall c st, P1 c e st = P2 c e st | None => True end) -> forall c st, P1 c (SData n ps ex) st = P2 c (SData n ps ex) st).
  { intros n ps ex IH c st. cbn [SchemaCompile.compile_pattern]. do 2 (apply eq_bind; [reflexivity|]; intros). apply eq_bind; [|reflexivity].
    destruct ex as [e|]; [|reflexivity]. apply eq_bind; [apply IH | reflexivity]. }
  assert (H_gi : forall h i ov, (match ov with Some l => Forall (fun i => forall c st, V1 c i st = V2 c i st) l | None => True end) -> forall c st, G1 c (GInclude h i ov) st = G2 c (GInclude h i ov) st).
  { intros h i ov Hov c st. cbn [SchemaCompile.compile_content]. apply eq_bind; [reflexivity|]. intros f st1. apply eq_load_map. intros s s' st2 Hs.
    do 2 (apply eq_bind; [reflexivity|]; intros). apply eq_bind.
    - destruct ov as [l|]; [|reflexivity]. apply eq_citer. eapply Forall_impl; [|exact Hov]. cbn. intros x Hx st0. apply eq_cmap, Hx.
    - intros. apply eq_bind; [apply eq_cmap, eq_schema; assumption | reflexivity]. }
  assert (H_gv : forall l, Forall (fun g => forall c st, G1 c g st = G2 c g st) l -> forall c st, G1 c (GDiv l) st = G2 c (GDiv l) st).
  { intros l Hl c st. cbn [SchemaCompile.compile_content]. apply eq_citer. eapply Forall_impl; [|exact Hl]. cbn. auto. }
  assert (H1 : forall p, forall c st, P1 c p st = P2 c p st).
  { apply (spat_ind' (fun p => forall c st, P1 c p st = P2 c p st) (fun g => forall c st, G1 c g st = G2 c g st) (fun i => forall c st, V1 c i st = V2 c i st)); auto;
    intros; cbn [SchemaCompile.compile_pattern SchemaCompile.compile_content SchemaCompile.compile_override];
    repeat first [reflexivity | match goal with H : forall c st, _ = _ |- _ => apply H end | apply eq_bind; [|intros]]. }
  split; [exact H1|].
  apply (gcontent_ind' (fun p => forall c st, P1 c p st = P2 c p st) (fun g => forall c st, G1 c g st = G2 c g st) (fun i => forall c st, V1 c i st = V2 c i st)); auto;
    intros; cbn [SchemaCompile.compile_content SchemaCompile.compile_override]; try reflexivity; (apply eq_bind; [apply H1 | reflexivity]).
Qed.
Lemma same_contents c l st : compile_contents O C fs rp ri c l st = compile_contents O C fs' rp' ri' c l st.
Proof. unfold compile_contents. apply eq_citer. apply Forall_forall. intros g _ st1. apply same_all. Qed.
End Rec.
Lemma same_nested d : (forall c p st, fst (nested O C fs d) c p st = fst (nested O C fs' d) c p st) /\ (forall c l st, snd (nested O C fs d) c l st = snd (nested O C fs' d) c l st).
Proof.
  induction d as [|d [IH1 IH2]]; [split; reflexivity|]. cbn [nested].
  destruct (nested O C fs d) as [rp ri], (nested O C fs' d) as [rp' ri']. cbn [fst snd] in *. split; intros.
  - apply same_all; assumption.
  - apply same_contents; assumption.
Qed.
Lemma same_compile d name : compile_grammar O C fs d name = compile_grammar O C fs' d name.
Proof.
  unfold compile_grammar. destruct (same_nested d) as [H1 H2]. destruct (nested O C fs d) as [rp ri], (nested O C fs' d) as [rp' ri']. cbn [fst snd] in *.
  apply eq_load. intros s s' st Hs. apply eq_bind; [reflexivity|]. intros c st1. apply eq_bind; [|reflexivity].
  apply eq_schema; [exact Hs | intros; apply same_all; assumption | intros; apply same_contents; assumption].
Qed.
End Same.

Lemma declarations_app l l' : forall c st, compile_declarations c (l ++ l') st = cbind (compile_declarations c l) (fun c' => compile_declarations c' l') st.
Proof.
  induction l as [|d l IH]; intros c st; cbn [compile_declarations app]; [reflexivity|]. unfold cbind in *. destruct (compile_declaration c d st) as [[[c' st']|e]|p|]; cbn; try reflexivity. apply IH.
Qed.
Lemma undefault_alike s : alike s (undefault s).
Proof.
  split; [reflexivity|]. cbn [undefault s_decls]. induction (s_decls s) as [|d l IH]; intros c st; [reflexivity|]. cbn [flat_map]. rewrite declarations_app.
  assert (HD : forall st, compile_declarations c (undefault_decl d) st = compile_declaration c d st).
  { intros st0. destruct d as [p [|u]|[p|] [|u]|p u]; cbn; unfold cbind; cbn; try reflexivity; match goal with |- fbind ?x _ = _ => destruct x as [[[? ?]|?]| |]; reflexivity end. }
  cbn [compile_declarations]. unfold cbind. rewrite HD. destruct (compile_declaration c d st) as [[[c' st']|e]|p|]; cbn; try reflexivity. apply IH.
Qed.
Lemma undefault_compile O C fs d name : compile_grammar O C fs d name = compile_grammar O C (undefaulted fs) d name.
Proof. apply same_compile. intros f. unfold undefaulted. destruct (fs f); [apply undefault_alike | reflexivity]. Qed.
Lemma undefault_meaning O C fs : files_ok (undefaulted fs) -> forall d name r st, compile_grammar O C fs d name = fok (r, st) ->
  forall root, rng_valid O (cell_defs st) (start_of r st) root <-> schema_valid (undefaulted fs) O C name root.
Proof. intros Hf d name r st H. rewrite undefault_compile in H. exact (compiled_meaning O C (undefaulted fs) Hf d name r st H). Qed.
