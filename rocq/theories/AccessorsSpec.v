(** * AccessorsSpec: what it means that a reported bound limits a value; a report that panics allows nothing. *)
From Verif Require Import Base.
Definition at_least {T} (le : T -> T -> Prop) (r : res (option T)) (x : T) : Prop :=
  match r with Ok None => True | Ok (Some a) => le a x | _ => False end.
Definition at_most {T} (le : T -> T -> Prop) (r : res (option T)) (x : T) : Prop :=
  match r with Ok None => True | Ok (Some b) => le x b | _ => False end.
