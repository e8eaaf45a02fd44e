(** * TextSpec: bytes, white space and lines of texts, from the standards. *)
From Verif Require Import Base.
Local Open Scope N_scope.

(** RFC 3629, section 3: the bytes of a code point.  Code points below 1114112 (0x110000). *)
Inductive Utf8 : N -> list N -> Prop :=
| U_one c : c < 128 -> Utf8 c [c]
| U_two a b : 2 <= a < 32 -> b < 64 -> Utf8 (a * 64 + b) [192 + a; 128 + b]
| U_three a b c : a < 16 -> b < 64 -> c < 64 -> 2048 <= a * 4096 + b * 64 + c -> Utf8 (a * 4096 + b * 64 + c) [224 + a; 128 + b; 128 + c]
| U_four a b c d : a < 8 -> b < 64 -> c < 64 -> d < 64 -> 65536 <= a * 262144 + b * 4096 + c * 64 + d < 1114112 ->
    Utf8 (a * 262144 + b * 4096 + c * 64 + d) [240 + a; 128 + b; 128 + c; 128 + d].
Inductive Utf8_text : str -> list N -> Prop :=
| Ut_nil : Utf8_text [] []
| Ut_cons c s bs bs' : Utf8 c bs -> Utf8_text s bs' -> Utf8_text (c :: s) (bs ++ bs').

(** Unicode, PropList.txt: White_Space (25 code points). *)
Definition white_space_table : list N :=
  [0x9; 0xA; 0xB; 0xC; 0xD; 0x20; 0x85; 0xA0; 0x1680; 0x2000; 0x2001; 0x2002; 0x2003; 0x2004; 0x2005; 0x2006; 0x2007; 0x2008; 0x2009; 0x200A;
   0x2028; 0x2029; 0x202F; 0x205F; 0x3000].

(** The lines of a text: each ends before a line feed, or before a carriage return and a line feed; what is left after
    the last line feed is a line if it is not empty. *)
Inductive Lines : str -> list str -> Prop :=
| Ln_none : Lines [] []
| Ln_last l : l <> [] -> ~ In 10 l -> Lines l [l]
| Ln_lf l r ls : ~ In 10 l -> (forall l', l <> l' ++ [13]) -> Lines r ls -> Lines (l ++ 10 :: r) (l :: ls)
| Ln_crlf l r ls : ~ In 10 l -> Lines r ls -> Lines (l ++ 13 :: 10 :: r) (l :: ls).
Definition total_length (ls : list str) : nat := list_sum (map (@List.length N) ls).
