(** * SourceScope: the schema files the compiler theorems (C28, C29, C32) speak about.

    The features left out are those the compiler gets wrong (see RefutedSchema.v): a default
    namespace other than "", [inherit], a datatype prefix that is declared only in the including
    file, and [external] of a file whose declarations or relative names would have to be read
    differently from those of the referring file ([ext_ok]). *)
From Verif Require Import Base Syntax SchemaCompile SourceSpec.
From Coq Require Import String.

Definition dtname_ok (ds : list decl) (n : sdtname) : Prop :=
  match n with SdC p _ => exists u, binds_dt ds p u | _ => True end.
Section Scope.
Variable fs : filesys.
(** [external] in file [f]: a file that is a pattern declares no datatype library; a file that is bare
    grammar contents lies in the same directory and has the declarations of [f] *)
Definition ext_ok (f : path) (ds : list decl) (href : literal) (inh : option id_or_kw) : Prop :=
  inh = None /\ forall g s, resolve f (lit_value href) = Some g -> fs g = inl s ->
    match s_top s with
    | TPattern _ => forall p l, ~ In (DDatatypes p l) (s_decls s)
    | TGrammar _ => s_decls s = ds /\ same_dir f g
    end.
Fixpoint pat_ok (f : path) (ds : list decl) (p : spat) : Prop :=
  match p with
  | SExternal href inh => ext_ok f ds href inh
  | SGrammar l => (fix all (l : list gcontent) : Prop := match l with [] => True | g :: l' => content_ok f ds g /\ all l' end) l
  | SValue (Some n) _ => dtname_ok ds n
  | SData n _ ex => dtname_ok ds n /\ match ex with Some e => pat_ok f ds e | None => True end
  | SElement _ q | SAttribute _ q | SList q | SMixed q | SGroup q | SOptional q | SZeroOrMore q | SOneOrMore q => pat_ok f ds q
  | SListPair a b | SInterleavePair a b | SChoicePair a b => pat_ok f ds a /\ pat_ok f ds b
  | SIdent _ | SParent _ | SEmpty | SText | SNotAllowed | SValue None _ => True
  end
with content_ok (f : path) (ds : list decl) (g : gcontent) : Prop :=
  match g with
  | GDefine _ _ p => pat_ok f ds p
  | GDiv l => (fix all (l : list gcontent) : Prop := match l with [] => True | g :: l' => content_ok f ds g /\ all l' end) l
  | GInclude _ inh ov => inh = None /\
      match ov with
      | Some l => (fix all (l : list icontent) : Prop := match l with [] => True | i :: l' => override_ok f ds i /\ all l' end) l
      | None => True
      end
  | GAnnotation _ => True
  end
with override_ok (f : path) (ds : list decl) (i : icontent) : Prop :=
  match i with
  | IDefine _ _ p => pat_ok f ds p
  | IDiv l => (fix all (l : list icontent) : Prop := match l with [] => True | i :: l' => override_ok f ds i /\ all l' end) l
  | IAnnotation _ => True
  end.
Fixpoint contents_ok (f : path) (ds : list decl) (l : list gcontent) : Prop :=
  match l with [] => True | g :: l' => content_ok f ds g /\ contents_ok f ds l' end.
(** the only default namespace is ""; no prefix is given two namespaces *)
Definition decls_ok (ds : list decl) : Prop :=
  (forall p u, In (DDefault p u) ds -> exists l, u = UUri l /\ lit_value l = []) /\
  (forall p u u', binds_ns ds p u -> binds_ns ds p u' -> u = u').
Definition schema_ok (f : path) (s : schema) : Prop :=
  decls_ok (s_decls s) /\
  match s_top s with TPattern p => pat_ok f (s_decls s) p | TGrammar l => contents_ok f (s_decls s) l end.
Definition files_ok : Prop := forall f s, fs f = inl s -> schema_ok f s.
End Scope.
