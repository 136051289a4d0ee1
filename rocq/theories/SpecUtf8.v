(** UTF-8 as RFC 3629 defines it, as a relation between bytes and characters, and the
    replacement of ill-formed parts recommended by the Unicode standard (3.9). *)
From Verif Require Import Base.

(** Unicode scalar values: code points that are not surrogates. *)
Definition scalar (c : char) : Prop := c < 55296 \/ (57344 <= c /\ c < 1114112).

(** [coded c b]: the bytes [b] are the shortest encoding of the character [c], with the bits of
    [c] in groups [x y z u], six bits each but the first. *)
Inductive coded : char -> list N -> Prop :=
| cd_1 x : x < 128 -> coded x [x]
| cd_2 x y : x < 32 -> y < 64 -> 128 <= 64 * x + y -> coded (64 * x + y) [192 + x; 128 + y]
| cd_3 x y z : x < 16 -> y < 64 -> z < 64 -> 2048 <= 64 * (64 * x + y) + z -> scalar (64 * (64 * x + y) + z) ->
    coded (64 * (64 * x + y) + z) [224 + x; 128 + y; 128 + z]
| cd_4 x y z u : x < 8 -> y < 64 -> z < 64 -> u < 64 -> 65536 <= 64 * (64 * (64 * x + y) + z) + u ->
    scalar (64 * (64 * (64 * x + y) + z) + u) ->
    coded (64 * (64 * (64 * x + y) + z) + u) [240 + x; 128 + y; 128 + z; 128 + u].

(** [utf8 b t]: the bytes [b] are the text [t]. *)
Inductive utf8 : list N -> text -> Prop :=
| u_nil : utf8 [] []
| u_cons c b bs t : coded c b -> utf8 bs t -> utf8 (b ++ bs) (c :: t).
Definition readable (b : list N) : Prop := exists t, utf8 b t.

(** The first bytes of a character. *)
Definition begins (b : list N) : Prop := exists c rest, coded c (b ++ rest) /\ rest <> [].
(** [ill b r]: no character stands at the start of [b ++ r], and [b] is the longest part there
    that could be the start of one, or a single byte. *)
Definition ill (b r : list N) : Prop :=
  (forall c b1 b2, coded c b1 -> b ++ r <> b1 ++ b2) /\
  ((begins b /\ b <> [] /\ forall x r', r = x :: r' -> ~ begins (b ++ [x])) \/
   (exists x, b = [x] /\ ~ begins [x])).
(** [shows b t]: [t] is [b] with every ill-formed part replaced by U+FFFD. *)
Inductive shows : list N -> text -> Prop :=
| sh_nil : shows [] []
| sh_char c b bs t : coded c b -> shows bs t -> shows (b ++ bs) (c :: t)
| sh_bad b bs t : ill b bs -> shows bs t -> shows (b ++ bs) (65533 :: t).
