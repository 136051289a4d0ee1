(** Specification: what two runs have in common when only the end of the file differs. *)
From Verif Require Import Base Tokens Syntax Lexer.

(** The number of tokens taken by the events. *)
Definition taken (es : list event) : nat := length (filter (fun e => match e with Advance => true | _ => false end) es).
(** The place [l1] stands in front of the place [l2]. *)
Definition earlier (line1 col1 line2 col2 : N) : bool := (line1 <? line2) || ((line1 =? line2) && (col1 <? col2)).
(** The message [e] is about something in front of token [t]. *)
Definition about_earlier (t : token) (e : err) : bool := earlier (eline e) (ecol e) (line (tstart t)) (col (tstart t)).
