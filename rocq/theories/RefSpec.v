(** * RefSpec: references that cannot be replaced (XML 1.0, 4.1 and 4.6), independent of the code.
    [BadRef ents s f]: the text [s] begins with a reference that stands for nothing.
    [f = Some name]: a well delimited reference to an entity [name] that is not declared.
    [f = None]: anything else, i.e. a numeric reference without digits, with a character that is no
    digit or to a number that is no Unicode scalar value, or a reference without ';'. *)
From Verif Require Import Base Infoset.
Local Open Scope N_scope.

Definition scalar (n : N) : Prop := n <= 55295 \/ 57344 <= n <= 1114111.
Inductive BadRef (ents : list (str * str)) : str -> option str -> Prop :=
| B_undefined name r : ~ In 59 name -> (forall t, name <> 35 :: t) -> first_binding name ents = None ->
    BadRef ents (38 :: name ++ 59 :: r) (Some name)
| B_no_digits r : BadRef ents (38 :: 35 :: 59 :: r) None
| B_no_hex_digits r : BadRef ents (38 :: 35 :: 120 :: 59 :: r) None
| B_dec_range ds r : Forall dec_digit ds -> ~ scalar (dec_number ds) -> BadRef ents (38 :: 35 :: ds ++ 59 :: r) None
| B_hex_range ds r : Forall hex_digit ds -> ~ scalar (hex_number ds) -> BadRef ents (38 :: 35 :: 120 :: ds ++ 59 :: r) None
| B_dec_digit c b r : c <> 43 -> c <> 120 -> ~ In 59 (c :: b) -> ~ Forall dec_digit (c :: b) -> BadRef ents (38 :: 35 :: (c :: b) ++ 59 :: r) None
| B_hex_digit c b r : c <> 43 -> ~ In 59 (c :: b) -> ~ Forall hex_digit (c :: b) -> BadRef ents (38 :: 35 :: 120 :: (c :: b) ++ 59 :: r) None
| B_unclosed b : b <> [] -> ~ In 59 b -> BadRef ents (38 :: b) None.
