(** * Deriv: the derivative functions of the validator.
    relaxng-validator/src/lib.rs:865-1198.
    Recursion is on explicit fuel; [OutOfFuel] is excluded in the theorems. *)
From Verif Require Import Base Datatype Store.
Open Scope monad_scope.

Section WithOracles.
Variable O : oracles.

(** lib.rs:936-942: the loop over the tokens of a list value; [td] is the recursive
    [text_deriv].  Returns [inl p] for the early [return p], [inr p] otherwise. *)
Fixpoint list_loop (td : pat -> str -> M pid) (p : pid) (items : list str) : M (pid + pid) :=
  match items with
  | [] => ret (inr p)
  | item :: rest =>
      let* pt := patt p in
      let* p' := td pt item in
      let* x := patt p' in
      if is_not_allowed x then ret (inl p') else list_loop td p' rest
  end.

(** lib.rs:865-984 [text_deriv] *)
Fixpoint text_deriv (fuel : nat) (current : pat) (txt : str) : M pid :=
  match fuel with
  | 0 => out_of_fuel
  | S fuel =>
    match current with
    | PChoice p1 p2 _ =>
        let* x1 := patt p1 in
        let* x2 := patt p2 in
        let* a := text_deriv fuel x1 txt in
        let* b := text_deriv fuel x2 txt in
        choice a b
    | PInterleave p1 p2 _ =>
        let* x1 := patt p1 in
        let* x2 := patt p2 in
        let* d1 := text_deriv fuel x1 txt in
        let* a := interleave d1 p2 in
        let* d2 := text_deriv fuel x2 txt in
        let* b := interleave p1 d2 in
        choice a b
    | PGroup p1 p2 _ =>
        let* x1 := patt p1 in
        let* x2 := patt p2 in
        let* d1 := text_deriv fuel x1 txt in
        let* p := group d1 p2 in
        if is_nullable x1 then
          let* d2 := text_deriv fuel x2 txt in
          choice p d2
        else ret p
    | PAfter p1 p2 =>
        let* x1 := patt p1 in
        let* d := text_deriv fuel x1 txt in
        after d p2
    | POneOrMore p _ =>
        let* x := patt p in
        let* d := text_deriv fuel x txt in
        let* o := one_or_more p in
        let* e := empty in
        let* c := choice o e in
        group d c
    | PText => text
    | PDatatype t =>
        let* v := lift (dt_valid O t txt) in
        if v then empty else not_allowed
    | PDatatypeValue v =>
        let* b := lift (dt_value_valid v txt) in
        if b then empty else not_allowed
    | PDatatypeExcept t ex =>
        let* x := patt ex in
        let* d := text_deriv fuel x txt in
        let* x2 := patt d in
        let* v := lift (dt_valid O t txt) in
        if v && negb (is_nullable x2) then empty else not_allowed
    | PList p =>
        let* r := list_loop (text_deriv fuel) p (split_whitespace txt) in
        match r with
        | inl p' => ret p'
        | inr p' =>
            let* last := patt p' in
            if is_empty last then ret p'
            else if is_nullable last then
              let* l := list_ p' in
              let* e := empty in
              choice l e
            else list_ p'
        end
    | PEmpty => if is_whitespace_str txt then empty else not_allowed
    | PNotAllowed | PAttribute _ _ => not_allowed
    | PElement _ _ => if is_whitespace_str txt then push current else not_allowed
    | PPlaceholder _ => fail PanPlaceholder
    end
  end.

(** lib.rs:1061-1082 [apply_after] *)
Fixpoint apply_after (fuel : nat) (p : pat) (f : pid -> M pid) : M pid :=
  match fuel with
  | 0 => out_of_fuel
  | S fuel =>
    match p with
    | PAfter p1 p2 => let* p2' := f p2 in after p1 p2'
    | PChoice p1 p2 _ =>
        let* x1 := patt p1 in
        let* x2 := patt p2 in
        let* c1 := apply_after fuel x1 f in
        let* c2 := apply_after fuel x2 f in
        choice c1 c2
    | PNotAllowed => not_allowed
    | _ => fail PApplyAfter
    end
  end.

(** lib.rs:986-1057 [start_tag_open_deriv] *)
Fixpoint start_tag_open_deriv (fuel : nat) (current : pat) (name : qname) : M pid :=
  match fuel with
  | 0 => out_of_fuel
  | S fuel =>
    match current with
    | PChoice l r _ =>
        let* x1 := patt l in
        let* x2 := patt r in
        let* d1 := start_tag_open_deriv fuel x1 name in
        let* d2 := start_tag_open_deriv fuel x2 name in
        choice d1 d2
    | POneOrMore p _ =>
        let* x := patt p in
        let* d := start_tag_open_deriv fuel x name in
        let* xd := patt d in
        apply_after fuel xd (fun q =>
          let* o := one_or_more p in
          let* e := empty in
          let* c := choice o e in
          group q c)
    | PInterleave p1 p2 _ =>
        let* x1 := patt p1 in
        let* x2 := patt p2 in
        let* d1 := start_tag_open_deriv fuel x1 name in
        let* xd1 := patt d1 in
        let* c1 := apply_after fuel xd1 (fun q => interleave q p2) in
        let* d2 := start_tag_open_deriv fuel x2 name in
        let* xd2 := patt d2 in
        let* c2 := apply_after fuel xd2 (fun q => interleave p1 q) in
        choice c1 c2
    | PGroup p1 p2 _ =>
        let* x1 := patt p1 in
        let* _ := patt p2 in
        let* d1 := start_tag_open_deriv fuel x1 name in
        let* xd1 := patt d1 in
        let* x := apply_after fuel xd1 (fun q => group q p2) in
        if is_nullable x1 then
          let* x2 := patt p2 in
          let* d2 := start_tag_open_deriv fuel x2 name in
          choice x d2
        else ret x
    | PElement nc p =>
        if contains nc name then
          let* e := empty in
          after p e
        else not_allowed
    | PAfter p1 p2 =>
        let* x1 := patt p1 in
        let* d := start_tag_open_deriv fuel x1 name in
        let* xd := patt d in
        apply_after fuel xd (fun q => after q p2)
    | PEmpty | PText | PNotAllowed | PAttribute _ _ | PDatatype _ | PDatatypeValue _
    | PDatatypeExcept _ _ | PList _ => not_allowed
    | PPlaceholder _ => fail PanPlaceholder
    end
  end.

(** lib.rs:1139-1146 [value_match] *)
Definition value_match (fuel : nat) (p : pat) (val : str) : M bool :=
  if is_nullable p && is_whitespace_str val then ret true
  else
    let* d := text_deriv fuel p val in
    let* x := patt d in
    ret (is_nullable x).

(** lib.rs:1084-1137 [att_deriv]; [memo] is the per-attribute HashMap, threaded as data. *)
Fixpoint att_deriv (fuel : nat) (mm : list (nat * pid)) (p : pid) (att : attr)
  : M (pid * list (nat * pid)) :=
  match fuel with
  | 0 => out_of_fuel
  | S fuel =>
    match lookup_nat p mm with
    | Some r => ret (r, mm)
    | None =>
      let* x := patt p in
      let* (v, mm) :=
        match x with
        | PAfter p1 p2 =>
            let* (d, mm) := att_deriv fuel mm p1 att in
            let* v := after d p2 in ret (v, mm)
        | PChoice p1 p2 _ =>
            let* (c1, mm) := att_deriv fuel mm p1 att in
            let* (c2, mm) := att_deriv fuel mm p2 att in
            let* v := choice c1 c2 in ret (v, mm)
        | PGroup p1 p2 _ =>
            let* (d1, mm) := att_deriv fuel mm p1 att in
            let* s1 := group d1 p2 in
            let* (d2, mm) := att_deriv fuel mm p2 att in
            let* s2 := group p1 d2 in
            let* v := choice s1 s2 in ret (v, mm)
        | PInterleave p1 p2 _ =>
            let* (d1, mm) := att_deriv fuel mm p1 att in
            let* i1 := interleave d1 p2 in
            let* (d2, mm) := att_deriv fuel mm p2 att in
            let* i2 := interleave p1 d2 in
            let* v := choice i1 i2 in ret (v, mm)
        | POneOrMore q _ =>
            let* (s1, mm) := att_deriv fuel mm q att in
            let* e := empty in
            let* s2 := choice p e in
            let* v := group s1 s2 in ret (v, mm)
        | PAttribute nc q =>
            let* y := patt q in
            if contains nc (a_name att) then
              let* b := value_match fuel y (a_value att) in
              let* v := (if b then empty else not_allowed) in ret (v, mm)
            else let* v := not_allowed in ret (v, mm)
        | _ => let* v := not_allowed in ret (v, mm)
        end in
      ret (v, (p, v) :: mm)
    end
  end.

(** lib.rs:1148-1177 [start_tag_close_deriv] *)
Fixpoint start_tag_close_deriv (fuel : nat) (p : pid) : M pid :=
  match fuel with
  | 0 => out_of_fuel
  | S fuel =>
    let* x := patt p in
    match x with
    | PAfter p1 p2 => let* a1 := start_tag_close_deriv fuel p1 in after a1 p2
    | PChoice p1 p2 _ =>
        let* c1 := start_tag_close_deriv fuel p1 in
        let* c2 := start_tag_close_deriv fuel p2 in choice c1 c2
    | PGroup p1 p2 _ =>
        let* c1 := start_tag_close_deriv fuel p1 in
        let* c2 := start_tag_close_deriv fuel p2 in group c1 c2
    | PInterleave p1 p2 _ =>
        let* c1 := start_tag_close_deriv fuel p1 in
        let* c2 := start_tag_close_deriv fuel p2 in interleave c1 c2
    | POneOrMore q _ =>
        let* _ := start_tag_close_deriv fuel q in one_or_more q
    | PAttribute _ _ => not_allowed
    | _ => ret p
    end
  end.

(** lib.rs:1179-1198 [end_tag_deriv] *)
Fixpoint end_tag_deriv (fuel : nat) (p : pat) : M pid :=
  match fuel with
  | 0 => out_of_fuel
  | S fuel =>
    match p with
    | PChoice p1 p2 _ =>
        let* x1 := patt p1 in
        let* x2 := patt p2 in
        let* c1 := end_tag_deriv fuel x1 in
        let* c2 := end_tag_deriv fuel x2 in
        choice c1 c2
    | PAfter p1 p2 =>
        let* x1 := patt p1 in
        if is_nullable x1 then ret p2 else not_allowed
    | _ => not_allowed
    end
  end.

End WithOracles.
