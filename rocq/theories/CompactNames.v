(** * CompactNames: the names which a parsed schema uses.  (C35) *)
From Coq Require Import String.
From Verif Require Import Base Datatype Syntax CompactParse CompactText CompactSound.
#[local] Existing Instance lax_mode.

(** the names a schema refers to and defines *)
Inductive use : Type := Ref (i : str) | Def (i : str).
Fixpoint pat_uses (p : spat) : list use :=
  match p with
  | SElement _ p | SAttribute _ p | SList p | SMixed p | SGroup p | SOptional p | SZeroOrMore p | SOneOrMore p => pat_uses p
  | SIdent i | SParent i => [Ref i]
  | SGrammar l => flat_map item_uses l
  | SListPair a b | SInterleavePair a b | SChoicePair a b => pat_uses a ++ pat_uses b
  | SData _ _ (Some e) => pat_uses e
  | _ => []
  end
with item_uses (g : gcontent) : list use :=
  match g with
  | GDefine n _ p => Def n :: pat_uses p
  | GDiv l => flat_map item_uses l
  | GInclude _ _ (Some l) => flat_map over_uses l
  | _ => []
  end
with over_uses (i : icontent) : list use :=
  match i with
  | IDefine n _ p => Def n :: pat_uses p
  | IDiv l => flat_map over_uses l
  | IAnnotation _ => []
  end.
Definition schema_uses (x : schema) : list use := match s_top x with TPattern p => pat_uses p | TGrammar l => flat_map item_uses l end.
(** a reference is an identifier; a definition also defines [start] *)
Definition use_ok (u : use) : Prop := match u with Ref i => Ident i | Def i => i = lit "start" \/ Ident i end.

Lemma postfix_uses p q o : Postfixes p q o -> pat_uses q = pat_uses p.
Proof. intros H. induction H as [p | p q c op g s Hc _ _ IH]; [reflexivity|]. rewrite IH. destruct Hc; reflexivity. Qed.
Lemma infix_uses c op a b : InfixOp c op -> pat_uses (c a b) = pat_uses a ++ pat_uses b.
Proof. intros []; reflexivity. Qed.
Fixpoint pat_names p s (H : Pat p s) {struct H} : Forall use_ok (pat_uses p)
with prim_names p s (H : Prim p s) {struct H} : Forall use_ok (pat_uses p)
with item_names g s (H : GItem g s) {struct H} : Forall use_ok (item_uses g)
with over_names i s (H : IItem i s) {struct H} : Forall use_ok (over_uses i).
Proof.
  - destruct H as [i an p s f q o _ Hp _ Hq | i an p s f q o g1 g2 c op r t _ Hp _ Hq _ Hc _ Hr | i an d s ps t g1 g2 e u _ _ _ _ _ _ He].
    + rewrite (postfix_uses _ _ _ Hq). exact (prim_names _ _ Hp).
    + rewrite (infix_uses _ _ _ _ Hc), (postfix_uses _ _ _ Hq). apply Forall_app. split; [exact (prim_names _ _ Hp) | exact (pat_names _ _ Hr)].
    + exact (pat_names _ _ He).
  - destruct H as [c k nc g1 s g2 g3 p t g4 Hc _ _ _ _ Hp _ | c k g1 g2 p s g3 Hc _ _ Hp _ | | | | i Hi _ | g i _ Hi | p k Hk | | g1 g2 l s g3 _ _ Hl _ | g1 p s g2 _ Hp _ | d s ps t g1 g2 e u _ _ _ _ _ He].
    + destruct Hc; exact (pat_names _ _ Hp).
    + destruct Hc; exact (pat_names _ _ Hp).
    + constructor.
    + constructor.
    + constructor.
    + constructor; [exact Hi | constructor].
    + constructor; [exact Hi | constructor].
    + destruct Hk; constructor.
    + constructor.
    + cbn [pat_uses]. induction Hl as [|x s Hx | x s g l t Hx _ _ _ IH]; cbn [flat_map]; [constructor | rewrite app_nil_r; exact (item_names _ _ Hx) | apply Forall_app; split; [exact (item_names _ _ Hx) | exact IH]].
    + exact (pat_names _ _ Hp).
    + exact (pat_names _ _ He).
  - destruct H as [h m g1 g2 p s _ _ _ Hp | i h m g1 g2 p s Hi _ _ _ Hp | g1 g2 l s g3 _ _ Hl _ | | g l s i t g1 g2 ov u g3 _ _ _ _ _ Hl _ | ].
    + constructor; [left; reflexivity | exact (pat_names _ _ Hp)].
    + constructor; [right; exact Hi | exact (pat_names _ _ Hp)].
    + cbn [item_uses]. induction Hl as [|x s Hx | x s g l t Hx _ _ _ IH]; cbn [flat_map]; [constructor | rewrite app_nil_r; exact (item_names _ _ Hx) | apply Forall_app; split; [exact (item_names _ _ Hx) | exact IH]].
    + constructor.
    + cbn [item_uses]. induction Hl as [|x u Hx | x u g' l' t' Hx _ _ _ IH]; cbn [flat_map]; [constructor | rewrite app_nil_r; exact (over_names _ _ Hx) | apply Forall_app; split; [exact (over_names _ _ Hx) | exact IH]].
    + constructor.
  - destruct H as [i an h m g1 g2 p s _ _ _ _ Hp | i an x h m g1 g2 p s _ Hi _ _ _ Hp | i an g1 g2 l s g3 _ _ _ Hl _ | ].
    + constructor; [left; reflexivity | exact (pat_names _ _ Hp)].
    + constructor; [right; exact Hi | exact (pat_names _ _ Hp)].
    + cbn [over_uses]. induction Hl as [|x s Hx | x s g l t Hx _ _ _ IH]; cbn [flat_map]; [constructor | rewrite app_nil_r; exact (over_names _ _ Hx) | apply Forall_app; split; [exact (over_names _ _ Hx) | exact IH]].
    + constructor.
Qed.
Theorem schema_names x s : parse_compact s = Parsed x -> Forall use_ok (schema_uses x).
Proof.
  intros H. apply schema_sound in H. destruct H as [g0 ds s g1 t u g2 _ _ _ _ Ht _]. unfold schema_uses. cbn [s_top].
  destruct Ht as [l s' _ Hl | p s' Hp _]; [|eapply pat_names; exact Hp].
  induction Hl as [|x s0 Hx | x s0 g l t0 Hx _ _ _ IH]; cbn [flat_map]; [constructor | rewrite app_nil_r; eapply item_names; exact Hx | apply Forall_app; split; [eapply item_names; exact Hx | exact IH]].
Qed.
