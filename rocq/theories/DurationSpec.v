(** * DurationSpec: what xsd:duration accepts, spelled out without regular expressions (C40). *)
From Coq Require Import String.
From Verif Require Import Base Spec DatatypeSpec.
Open Scope N_scope.

Definition between (a b c : N) : Prop := a <= c <= b.
(** two characters, of these kinds *)
Definition two (p q : N -> Prop) (s : str) : Prop := exists a b, s = [a; b] /\ p a /\ q b.
Definition maybe (c : N) (s : str) : Prop := s = [] \/ s = [c].
(** 01 to 09, 11, 12; the months are written like this in the code, without October *)
Definition Month (s : str) : Prop := two (eq 48) (between 49 57) s \/ s = lit "11" \/ s = lit "12".
Definition Day (d : N -> Prop) (s : str) : Prop := two (between 48 50) d s \/ s = lit "30" \/ s = lit "31".
Definition Clock (s : str) : Prop :=
  (exists h c1 m c2 e, s = h ++ c1 ++ m ++ c2 ++ e /\ (two (between 48 49) (between 48 57) h \/ two (eq 50) (between 48 51) h) /\ maybe 58 c1 /\
     two (between 48 53) (between 48 57) m /\ maybe 58 c2 /\ (two (between 48 53) (between 48 57) e \/ e = lit "60")) \/ s = lit "2400" \/ s = lit "24:00".
(** year, month, day, T and time; [d]: what counts as a digit in the year and the day *)
Definition Moment (d : N -> Prop) (s : str) : Prop :=
  exists y h1 mo h2 da ti, s = y ++ h1 ++ mo ++ h2 ++ da ++ [84] ++ ti /\ digits_of d 4 y /\ maybe 45 h1 /\ Month mo /\ maybe 45 h2 /\ Day d da /\ Clock ti.
