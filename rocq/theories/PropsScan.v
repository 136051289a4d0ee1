(** The lexer on every text. *)
From Verif Require Import ProofBase Tokens Lexer SpecLex SpecPieces LexAll.

(** C78: every text falls into white space, items and rejected pieces in exactly one way. *)
Theorem C78_pieces : forall s, exists ps, pieces s ps /\ forall ps', pieces s ps' -> ps' = ps.
Proof. exact pieces_exactly. Qed.

(** The lexer reports exactly these pieces, all of them, at their places; it crashes
    exactly if a line comment, or a rejected piece directly before an item, ends with a
    character of several bytes. *)
Theorem C78_lex : forall s ps, pieces s ps ->
  (stumbles ps -> lex s = Panic PSlice) /\
  (~ stumbles ps ->
   lex s = Ok (filter is_code (fst (report [] 0 ps)), filter is_comment (fst (report [] 0 ps)),
               snd (report [] 0 ps))).
Proof. exact lex_all. Qed.

(** Two characters that start nothing (one of them of two bytes), a quoted identifier that
    is cut short by a line end, and a string that is never closed. *)
Definition broken : text := str "x $ " ++ [233; 32; 39; 97; 10] ++ str "y/*c*/'b' ""open".

Example C78_applies : exists ps, pieces broken ps /\ ~ stumbles ps /\
  ps = [PItem TIdentifier (str "x"); PSpace 32; PBad (str "$") (str "unexpected character: '$'");
        PSpace 32; PBad [233] (str "unexpected character: '" ++ [233] ++ str "'"); PSpace 32;
        PBad [39; 97; 10] (str "unexpected character inside Q-IDENT: '" ++ [10] ++ str "'");
        PItem TIdentifier (str "y"); PItem TBlockComment (str "/*c*/");
        PItem TIdentifier (str "'b'"); PSpace 32; PBad (str """open") (str "unclosed string")] /\
  map (fun e => (eline e, ecol e)) (snd (report [] 0 ps)) = [(1, 3); (1, 5); (1, 7); (2, 11)].
Proof.
  exists (cut 100 broken). split; [apply cut_pieces; vm_compute; lia|].
  split; [|vm_compute; auto]. intro S. vm_compute in S.
  repeat match goal with
    | H : stumbles _ |- _ => inversion H; subst; clear H
    | H : ends_wide _ |- _ => destruct H as (u & x & E & W)
    end;
  repeat match goal with
    | E : _ :: _ = ?u ++ [_] |- _ => destruct u; cbn in E; inversion E; subst; clear E
    | E : [] = ?u ++ [_] |- _ => destruct u; discriminate
    end; lia.
Qed.

(** The crash: a character of two bytes directly before a token, where the white space
    of the text above would have avoided it. *)
Example C78_crash : lex (str "x " ++ [233] ++ str "y") = Panic PSlice /\
  exists ps, pieces (str "x " ++ [233] ++ str "y") ps /\ stumbles ps.
Proof.
  split; [vm_compute; reflexivity|]. exists (cut 9 (str "x " ++ [233] ++ str "y")).
  split; [apply cut_pieces; vm_compute; lia|]. vm_compute.
  apply st_later, st_later, st_bad. exists [], 233. split; [reflexivity | lia].
Qed.

Print Assumptions C78_pieces.
Print Assumptions C78_lex.
