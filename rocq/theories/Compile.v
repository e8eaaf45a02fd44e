(** * Compile: the validator's model patterns and their compilation into the store.
    relaxng-model/src/model.rs:35-60 [Pattern]; relaxng-validator/src/lib.rs:532-616
    [Validator::new], [Validator::compile].

    Simplification: a [PatRef] (an [Rc] cell shared between definition and uses) is an index into
    the list of definitions; an index outside the list is a cell still holding [None]. *)
From Verif Require Import Base Datatype Store Deriv Events.
Open Scope monad_scope.

Inductive mpat : Type :=
| MChoice (l : list mpat)
| MInterleave (l : list mpat)
| MGroup (l : list mpat)
| MMixed (p : mpat)
| MEmpty
| MText
| MNotAllowed
| MOptional (p : mpat)
| MZeroOrMore (p : mpat)
| MOneOrMore (p : mpat)
| MAttribute (nc : nameclass) (p : mpat)
| MElement (nc : nameclass) (p : mpat)
| MRef (r : nat)
| MValue (v : dt_value)
| MData (d : dt) (ex : option mpat)
| MList (p : mpat).

Section Ind.
Variable P : mpat -> Prop.
Hypothesis Hch : forall l, Forall P l -> P (MChoice l).
Hypothesis Hin : forall l, Forall P l -> P (MInterleave l).
Hypothesis Hgr : forall l, Forall P l -> P (MGroup l).
Hypothesis Hmi : forall p, P p -> P (MMixed p).
Hypothesis Hem : P MEmpty.
Hypothesis Hte : P MText.
Hypothesis Hna : P MNotAllowed.
Hypothesis Hop : forall p, P p -> P (MOptional p).
Hypothesis Hze : forall p, P p -> P (MZeroOrMore p).
Hypothesis Hon : forall p, P p -> P (MOneOrMore p).
Hypothesis Hat : forall nc p, P p -> P (MAttribute nc p).
Hypothesis Hel : forall nc p, P p -> P (MElement nc p).
Hypothesis Hre : forall r, P (MRef r).
Hypothesis Hva : forall v, P (MValue v).
Hypothesis Hda : forall d ex, (forall e, ex = Some e -> P e) -> P (MData d ex).
Hypothesis Hli : forall p, P p -> P (MList p).
Fixpoint mpat_ind' (X : mpat) : P X :=
  let all := fix go (l : list mpat) : Forall P l :=
    match l with [] => Forall_nil _ | x :: l' => Forall_cons x (mpat_ind' x) (go l') end in
  match X with
  | MChoice l => Hch l (all l)
  | MInterleave l => Hin l (all l)
  | MGroup l => Hgr l (all l)
  | MMixed p => Hmi p (mpat_ind' p)
  | MEmpty => Hem
  | MText => Hte
  | MNotAllowed => Hna
  | MOptional p => Hop p (mpat_ind' p)
  | MZeroOrMore p => Hze p (mpat_ind' p)
  | MOneOrMore p => Hon p (mpat_ind' p)
  | MAttribute nc p => Hat nc p (mpat_ind' p)
  | MElement nc p => Hel nc p (mpat_ind' p)
  | MRef r => Hre r
  | MValue v => Hva v
  | MData d ex => Hda d ex
      match ex as o return forall e, o = Some e -> P e with
      | Some e0 => fun e (H : Some e0 = Some e) =>
          match H in _ = o return match o with Some e' => P e' | None => True end with eq_refl => mpat_ind' e0 end
      | None => fun e H => match H in _ = o return match o with Some _ => P e | None => True end with eq_refl => I end
      end
  | MList p => Hli p (mpat_ind' p)
  end.
End Ind.

(** lib.rs:560-585: the three n-ary operators; the last member is compiled first. *)
Fixpoint comp_list (op : pid -> pid -> M pid) (c : mpat -> M pid) (l : list mpat) : M pid :=
  match l with
  | [] => fail PUnwrapNone
  | [x] => c x
  | x :: l' =>
      let* rgt := comp_list op c l' in
      let* lft := c x in
      op lft rgt
  end.

(** lib.rs:558-616 [compile] *)
Fixpoint compile (defs : list mpat) (fuel : nat) (p : mpat) : M pid :=
  match fuel with
  | 0 => out_of_fuel
  | S fuel =>
    match p with
    | MChoice l => comp_list choice (compile defs fuel) l
    | MInterleave l => comp_list interleave (compile defs fuel) l
    | MGroup l => comp_list group (compile defs fuel) l
    | MMixed p => let* a := compile defs fuel p in mixed a
    | MEmpty => empty
    | MText => text
    | MNotAllowed => not_allowed
    | MOptional p => let* a := compile defs fuel p in let* e := empty in choice a e
    | MZeroOrMore p =>
        let* a := compile defs fuel p in
        let* o := one_or_more a in
        let* e := empty in
        choice o e
    | MOneOrMore p => let* a := compile defs fuel p in one_or_more a
    | MAttribute nc p => let* a := compile defs fuel p in attribute nc a
    | MElement nc p => let* a := compile defs fuel p in element nc a
    | MRef r =>
        let* g := get_ref r in
        match g with
        | Some id => ret id
        | None =>
            let* ph := ref_placeholder r in
            match nth_error defs r with
            | None => fail PMissingDefinition
            | Some X =>
                let* id := compile defs fuel X in
                let* _ := resolve_ref ph id in
                ret ph
            end
        end
    | MValue v => datatype_value v
    | MData d ex =>
        match ex with
        | None => datatype_name d None
        | Some e => let* a := compile defs fuel e in datatype_name d (Some a)
        end
    | MList p => let* a := compile defs fuel p in list_ a
    end
  end.

(** lib.rs:532-557 [Validator::new]; [start = None] is an empty start cell. *)
Definition new_validator (defs : list mpat) (fuel : nat) (start : option mpat) : res validator :=
  match start with
  | None => Panic PUnwrapNone
  | Some X =>
      rbind (compile defs fuel X empty_store) (fun '(id, st) =>
        Ok (Validator st id false [] initial_entities))
  end.
