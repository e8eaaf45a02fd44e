(** * SchemaSpec: vocabulary for the schema properties C29-C33, on the source syntax only. *)
From Coq Require Import Permutation String.
From Verif Require Import Base Store Compile Syntax SchemaCompile SourceSpec.

(** ** C29: which lists of [=], [|=], [&=] may define one name (4.17) *)
Definition method_eq_dec : forall a b : method, {a = b} + {a <> b}.
Proof. decide equality. Defined.
Definition combinable (hs : list method) : Prop :=
  count_occ method_eq_dec hs MAssign <= 1 /\ ~ (In MChoiceC hs /\ In MInterleaveC hs).

(** ** the patterns directly inside a pattern *)
Inductive child : spat -> spat -> Prop :=
| Ch_element nc p : child p (SElement nc p)
| Ch_attribute nc p : child p (SAttribute nc p)
| Ch_list p : child p (SList p)
| Ch_mixed p : child p (SMixed p)
| Ch_group p : child p (SGroup p)
| Ch_seq_l p q : child p (SListPair p q)
| Ch_seq_r p q : child q (SListPair p q)
| Ch_inter_l p q : child p (SInterleavePair p q)
| Ch_inter_r p q : child q (SInterleavePair p q)
| Ch_choice_l p q : child p (SChoicePair p q)
| Ch_choice_r p q : child q (SChoicePair p q)
| Ch_optional p : child p (SOptional p)
| Ch_zero p : child p (SZeroOrMore p)
| Ch_one p : child p (SOneOrMore p)
| Ch_except n ps p : child p (SData n ps (Some p)).

Section Files.
Variable fs : filesys.
(** ** C30: [Refers e G p G' n]: pattern [p], in scope [e] and inside the grammars [G], refers to the name
    [n] of the innermost grammar of [G'] *)
Inductive Refers : fenv -> grams -> spat -> grams -> str -> Prop :=
| Rf_ident e G i : Refers e G (SIdent i) G i
| Rf_parent e g G i : Refers e (g :: G) (SParent i) G i
| Rf_grammar e G l ds : Expand fs e l ds -> Refers e G (SGrammar l) (ds :: G) (lit "start")
| Rf_child e G p q G' n : child q p -> Refers e G q G' n -> Refers e G p G' n
| Rf_external e e' G h i p G' n : External fs e h i e' p -> Refers e' G p G' n -> Refers e G (SExternal h i) G' n.
(** the names reachable from the start of file [f] *)
Inductive Reached (f : path) : grams -> str -> Prop :=
| Re_start g : file_grammar fs f g -> Reached f [g] (lit "start")
| Re_step g G n d G' n' : Reached f (g :: G) n -> In d (defs_named n g) -> Refers (d_env d) (g :: G) (d_body d) G' n' -> Reached f G' n'.

(** ** C33: [Within q p], [Reads f f']: file [f] includes file [f'], anywhere *)
Inductive has_include : literal -> gcontent -> Prop :=
| Hi_here h i ov : has_include h (GInclude h i ov)
| Hi_div h g l : In g l -> has_include h g -> has_include h (GDiv l)
| Hi_define h n how p : in_pattern h p -> has_include h (GDefine n how p)
| Hi_override h h' inh l n how p : In (IDefine n how p) l -> in_pattern h p -> has_include h (GInclude h' inh (Some l))
with in_pattern : literal -> spat -> Prop :=
| Ip_child h p q : child q p -> in_pattern h q -> in_pattern h p
| Ip_grammar h l g : In g l -> has_include h g -> in_pattern h (SGrammar l).
Inductive in_file : literal -> schema -> Prop :=
| If_grammar h ds l g : In g l -> has_include h g -> in_file h (Schema ds (TGrammar l))
| If_pattern h ds p : in_pattern h p -> in_file h (Schema ds (TPattern p)).
Definition Reads (f f' : path) : Prop :=
  exists s h, fs f = inl s /\ in_file h s /\ resolve f (lit_value h) = Some f'.
(** a chain of includes *)
Inductive Chain : nat -> path -> path -> Prop :=
| Chain_0 f : Chain 0 f f
| Chain_S n f f' f'' : Reads f f' -> Chain n f' f'' -> Chain (S n) f f''.
End Files.

(** ** C31: a reference to [n] outside elements (and outside nested grammars) *)
Inductive bare_ref (n : str) : spat -> Prop :=
| Br_here : bare_ref n (SIdent n)
| Br_child p q : child q p -> (forall nc x, p <> SElement nc x) -> bare_ref n q -> bare_ref n p.
(** [defines n p g]: somewhere in [g], the name [n] is given a definition with body [p] *)
Inductive defines : str -> spat -> gcontent -> Prop :=
| Df_here n how p : defines n p (GDefine n how p)
| Df_inside n p m how q : defines_in n p q -> defines n p (GDefine m how q)
| Df_div n p g l : In g l -> defines n p g -> defines n p (GDiv l)
| Df_override n p how h inh l : In (IDefine n how p) l -> defines n p (GInclude h inh (Some l))
| Df_override_inside n p m how q h inh l : In (IDefine m how q) l -> defines_in n p q -> defines n p (GInclude h inh (Some l))
with defines_in : str -> spat -> spat -> Prop :=
| Dn_child n p q q' : child q' q -> defines_in n p q' -> defines_in n p q
| Dn_grammar n p g l : In g l -> defines n p g -> defines_in n p (SGrammar l).
Inductive file_defines : str -> spat -> schema -> Prop :=
| Fd_grammar n p ds l g : In g l -> defines n p g -> file_defines n p (Schema ds (TGrammar l))
| Fd_pattern n p ds q : defines_in n p q -> file_defines n p (Schema ds (TPattern q)).

(** ** C33, termination: where [external] occurs *)
Inductive has_external : gcontent -> Prop :=
| He_define n how p : external_in p -> has_external (GDefine n how p)
| He_div g l : In g l -> has_external g -> has_external (GDiv l)
| He_override h inh l n how p : In (IDefine n how p) l -> external_in p -> has_external (GInclude h inh (Some l))
with external_in : spat -> Prop :=
| Ei_here h i : external_in (SExternal h i)
| Ei_child p q : child q p -> external_in q -> external_in p
| Ei_grammar l g : In g l -> has_external g -> external_in (SGrammar l).
Inductive file_external : schema -> Prop :=
| Fe_grammar ds l g : In g l -> has_external g -> file_external (Schema ds (TGrammar l))
| Fe_pattern ds p : external_in p -> file_external (Schema ds (TPattern p)).

(** ** C57: [part q p]: [q] stands in [p], outside nested grammars; [occurs q g]: [q] stands anywhere in [g] *)
Inductive part (q : spat) : spat -> Prop :=
| Pt_here : part q q
| Pt_child p p' : child p' p -> part q p' -> part q p.
Inductive occurs (q : spat) : gcontent -> Prop :=
| Oc_define n how p : occurs_in q p -> occurs q (GDefine n how p)
| Oc_div g l : In g l -> occurs q g -> occurs q (GDiv l)
| Oc_override h inh l n how p : In (IDefine n how p) l -> occurs_in q p -> occurs q (GInclude h inh (Some l))
with occurs_in (q : spat) : spat -> Prop :=
| Oi_here : occurs_in q q
| Oi_child p p' : child p' p -> occurs_in q p' -> occurs_in q p
| Oi_grammar l g : In g l -> occurs q g -> occurs_in q (SGrammar l).
Inductive file_occurs (q : spat) : schema -> Prop :=
| Fo_grammar ds l g : In g l -> occurs q g -> file_occurs q (Schema ds (TGrammar l))
| Fo_pattern ds p : occurs_in q p -> file_occurs q (Schema ds (TPattern p)).
(** the prohibited paths of RELAX NG 7.1.1, 7.1.3, 7.1.4, as far as they are written out in one pattern *)
Inductive prohibited : spat -> Prop :=
| Ph_attribute_element nc p nc' x : part (SElement nc' x) p -> prohibited (SAttribute nc p)
| Ph_attribute_attribute nc p nc' x : part (SAttribute nc' x) p -> prohibited (SAttribute nc p)
| Ph_list_element p nc' x : part (SElement nc' x) p -> prohibited (SList p)
| Ph_list_attribute p nc' x : part (SAttribute nc' x) p -> prohibited (SList p)
| Ph_list_list p x : part (SList x) p -> prohibited (SList p)
| Ph_list_text p : part SText p -> prohibited (SList p)
| Ph_except_element n ps p nc' x : part (SElement nc' x) p -> prohibited (SData n ps (Some p))
| Ph_except_attribute n ps p nc' x : part (SAttribute nc' x) p -> prohibited (SData n ps (Some p))
| Ph_except_list n ps p x : part (SList x) p -> prohibited (SData n ps (Some p))
| Ph_except_text n ps p : part SText p -> prohibited (SData n ps (Some p))
| Ph_except_empty n ps p : part SEmpty p -> prohibited (SData n ps (Some p)).
