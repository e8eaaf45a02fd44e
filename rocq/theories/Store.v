(** * Store: name classes and the hash-consed pattern store of the validator.
    relaxng-validator/src/lib.rs:26-242, 467-520; relaxng-model/src/model.rs:77-94 *)
From Verif Require Import Base Datatype.

(** ** Names *)
(** lib.rs:509-513 [QualifiedName]; [None] = no namespace. *)
Record qname : Type := QName { q_ns : option str; q_local : str }.
(** lib.rs:515-520 [Attr] (the source span, used only in error reports, is dropped). *)
Record attr : Type := Attr { a_name : qname; a_value : str }.

(** model.rs:77-94 [NameClass] *)
Inductive nameclass : Type :=
| NNamed (ns name : str)
| NNsName (ns : str) (except : option nameclass)
| NAnyName (except : option nameclass)
| NAlt (a b : nameclass).

(** lib.rs:467-473 [is_ns_match] *)
Definition is_ns_match (ns : str) (target : option str) : bool :=
  match target with Some t => str_eqb t ns | None => match ns with [] => true | _ => false end end.
(** lib.rs:474-507 [contains] *)
Fixpoint contains (nc : nameclass) (q : qname) : bool :=
  match nc with
  | NNamed ns name =>
      match q_ns q with
      | Some t => str_eqb t ns && str_eqb (q_local q) name
      | None => match ns with [] => true | _ => false end && str_eqb (q_local q) name
      end
  | NNsName ns ex =>
      if is_ns_match ns (q_ns q) then match ex with Some e => negb (contains e q) | None => true end
      else false
  | NAnyName ex => match ex with None => true | Some e => negb (contains e q) end
  | NAlt a b => contains a q || contains b q
  end.

Lemma nameclass_eq_dec_aux : forall a b : nameclass, {a = b} + {a <> b}.
Proof.
  fix IH 1. intros a b; destruct a as [n m|n e|e|a1 a2]; destruct b as [n' m'|n' e'|e'|b1 b2];
    try (right; discriminate).
  - destruct (str_eq_dec n n') as [->|H]; [|right; congruence].
    destruct (str_eq_dec m m') as [->|H]; [left; reflexivity|right; congruence].
  - destruct (str_eq_dec n n') as [->|H]; [|right; congruence].
    destruct e as [e|]; destruct e' as [e'|]; try (right; discriminate); [|left; reflexivity].
    destruct (IH e e') as [->|H]; [left; reflexivity|right; congruence].
  - destruct e as [e|]; destruct e' as [e'|]; try (right; discriminate); [|left; reflexivity].
    destruct (IH e e') as [->|H]; [left; reflexivity|right; congruence].
  - destruct (IH a1 b1) as [->|H]; [|right; congruence].
    destruct (IH a2 b2) as [->|H]; [left; reflexivity|right; congruence].
Defined.
Definition nameclass_eq_dec : forall a b : nameclass, {a = b} + {a <> b} := nameclass_eq_dec_aux.

(** ** Patterns *)
(** lib.rs:36-53 [Pat]; a [PatId] (u16) is a [nat] index, the width is enforced by [push].
    [PPlaceholder] carries the identity of the definition (a pointer in Rust). *)
Definition pid := nat.
Inductive pat : Type :=
| PChoice (l r : pid) (n : bool)
| PInterleave (l r : pid) (n : bool)
| PGroup (l r : pid) (n : bool)
| POneOrMore (p : pid) (n : bool)
| PEmpty
| PText
| PNotAllowed
| PAttribute (nc : nameclass) (p : pid)
| PElement (nc : nameclass) (p : pid)
| PDatatype (d : dt)
| PDatatypeValue (v : dt_value)
| PDatatypeExcept (d : dt) (p : pid)
| PList (p : pid)
| PPlaceholder (r : nat)
| PAfter (p1 p2 : pid).

Definition pat_eq_dec : forall a b : pat, {a = b} + {a <> b}.
Proof.
  decide equality; try apply Nat.eq_dec; try apply bool_dec; try apply nameclass_eq_dec;
    try apply dt_eq_dec; apply dt_value_eq_dec.
Defined.

(** lib.rs:56-74 [Pat::is_nullable] *)
Definition is_nullable (p : pat) : bool :=
  match p with
  | PChoice _ _ n | PInterleave _ _ n | PGroup _ _ n | POneOrMore _ n => n
  | PEmpty | PText => true
  | _ => false
  end.
Definition is_not_allowed (p : pat) : bool := match p with PNotAllowed => true | _ => false end.
Definition is_empty (p : pat) : bool := match p with PEmpty => true | _ => false end.
Definition is_placeholder (p : pat) : bool := match p with PPlaceholder _ => true | _ => false end.

(** lib.rs:78-82 [Inner].  HashMaps are association lists, newest binding first. *)
Record store : Type := Store {
  pats : list pat;
  memo : list (pat * pid);
  refs : list (nat * pid)
}.
Definition empty_store : store := Store [] [] [].

Fixpoint lookup_pat (p : pat) (l : list (pat * pid)) : option pid :=
  match l with
  | [] => None
  | (q, i) :: l' => if pat_eq_dec q p then Some i else lookup_pat p l'
  end.
Fixpoint lookup_nat (r : nat) (l : list (nat * pid)) : option pid :=
  match l with
  | [] => None
  | (q, i) :: l' => if Nat.eq_dec q r then Some i else lookup_nat r l'
  end.

(** ** State monad over the store *)
Definition M (A : Type) : Type := store -> res (A * store).
Definition ret {A} (a : A) : M A := fun st => Ok (a, st).
Definition bind {A B} (x : M A) (f : A -> M B) : M B :=
  fun st => match x st with
            | Ok (a, st') => f a st'
            | Panic p => Panic p
            | OutOfFuel => OutOfFuel
            end.
Definition fail {A} (p : panic) : M A := fun _ => Panic p.
Definition out_of_fuel {A} : M A := fun _ => OutOfFuel.
Definition lift {A} (x : res A) : M A :=
  fun st => match x with Ok a => Ok (a, st) | Panic p => Panic p | OutOfFuel => OutOfFuel end.
Declare Scope monad_scope.
Notation "'let*' x ':=' e 'in' f" := (bind e (fun x => f))
  (at level 200, x pattern, e at level 100, f at level 200, right associativity) : monad_scope.
Open Scope monad_scope.

(** The limit of lib.rs:90: more than 0xffff patterns panics.  Written as an [N] comparison. *)
Definition max_patterns : N := 65535.
(** lib.rs:88-101 [Schema::push] *)
Definition push (p : pat) : M pid :=
  fun st =>
    if (max_patterns <? N.of_nat (length (pats st)))%N then Panic PTooManyPatterns
    else match lookup_pat p (memo st) with
         | Some i => Ok (i, st)
         | None => let i := length (pats st) in
                   Ok (i, Store (pats st ++ [p]) ((p, i) :: memo st) (refs st))
         end.
(** lib.rs:240-242 [Schema::patt] *)
Definition patt (i : pid) : M pat :=
  fun st => match nth_error (pats st) i with Some p => Ok (p, st) | None => Panic PIndex end.

(** lib.rs:165-173 *)
Definition empty : M pid := push PEmpty.
Definition text : M pid := push PText.
Definition not_allowed : M pid := push PNotAllowed.
(** lib.rs:102-131 [choice] *)
Definition choice (left right : pid) : M pid :=
  let* l := patt left in
  let* r := patt right in
  if is_not_allowed l then ret right
  else if is_not_allowed r then ret left
  else if Nat.eqb left right then ret left
  else push (PChoice left right (is_nullable l || is_nullable r)).
(** lib.rs:132-144 [interleave] *)
Definition interleave (left right : pid) : M pid :=
  let* l := patt left in
  let* r := patt right in
  if is_not_allowed l then not_allowed
  else if is_not_allowed r then not_allowed
  else if is_empty l then ret right
  else if is_empty r then ret left
  else push (PInterleave left right (is_nullable l && is_nullable r)).
(** lib.rs:145-153 [group] *)
Definition group (left right : pid) : M pid :=
  let* l := patt left in
  let* r := patt right in
  if is_not_allowed l then not_allowed
  else if is_not_allowed r then not_allowed
  else if is_empty l then ret right
  else if is_empty r then ret left
  else push (PGroup left right (is_nullable l && is_nullable r)).
(** lib.rs:154-160 [after]: note that [p1] is inspected twice and [p2] never. *)
Definition after (p1 p2 : pid) : M pid :=
  let* x := patt p1 in
  if is_not_allowed x then not_allowed else push (PAfter p1 p2).
(** lib.rs:162-164 [mixed] *)
Definition mixed (p : pid) : M pid := let* t := text in interleave p t.
(** lib.rs:174-177 [one_or_more] *)
Definition one_or_more (p : pid) : M pid :=
  let* x := patt p in push (POneOrMore p (is_nullable x)).
(** lib.rs:178-196 *)
Definition attribute (nc : nameclass) (p : pid) : M pid := push (PAttribute nc p).
Definition element (nc : nameclass) (p : pid) : M pid := push (PElement nc p).
Definition datatype_value (v : dt_value) : M pid := push (PDatatypeValue v).
Definition datatype_name (d : dt) (ex : option pid) : M pid :=
  match ex with Some e => push (PDatatypeExcept d e) | None => push (PDatatype d) end.
Definition list_ (p : pid) : M pid := push (PList p).

(** lib.rs:197-200 [get_ref] *)
Definition get_ref (r : nat) : M (option pid) := fun st => Ok (lookup_nat r (refs st), st).
(** lib.rs:207-217 [ref_placeholder] *)
Definition ref_placeholder (r : nat) : M pid :=
  let* i := push (PPlaceholder r) in
  fun st => Ok (i, Store (pats st) (memo st) ((r, i) :: refs st)).
Fixpoint set_nth {A} (l : list A) (i : nat) (x : A) : list A :=
  match l, i with
  | [], _ => []
  | _ :: l', 0 => x :: l'
  | y :: l', S i' => y :: set_nth l' i' x
  end.
(** lib.rs:218-239 [resolve_ref] *)
Definition resolve_ref (placeholder_id id : pid) : M unit :=
  if Nat.eqb placeholder_id id then ret tt
  else
    let* target := patt id in
    if is_placeholder target then fail PResolveToPlaceholder
    else
      let* cur := patt placeholder_id in
      if is_placeholder cur then
        fun st => Ok (tt, Store (set_nth (pats st) placeholder_id target) (memo st) (refs st))
      else fail PResolveNotPlaceholder.
