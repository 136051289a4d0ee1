(** Model of the UTF-8 conversions of the Rust standard library that main.rs relies on:
    [String] to bytes (main.rs 144, [fs::write]), bytes to [String] (main.rs 136,
    [fs::read_to_string], and 22, [env::args]) and bytes to displayed text (main.rs 63,
    [Path::display]). *)
From Verif Require Import Base.

(** Bytes are numbers below 256. *)
Definition bytes := list N.

(** [char::encode_utf8] *)
Definition encode_char (c : char) : bytes :=
  if c <? 128 then [c]
  else if c <? 2048 then [192 + c / 64; 128 + c mod 64]
  else if c <? 65536 then [224 + c / 4096; 128 + c / 64 mod 64; 128 + c mod 64]
  else [240 + c / 262144; 128 + c / 4096 mod 64; 128 + c / 64 mod 64; 128 + c mod 64].
Definition encode (t : text) : bytes := flat_map encode_char t.

Definition between (a b x : N) : bool := (a <=? x) && (x <=? b).
Definition continues (x : N) : bool := between 128 191 x.
(** The second bytes allowed after a first byte ([run_utf8_validation], [Utf8Chunks::next]). *)
Definition second3 (b0 b1 : N) : bool :=
  if b0 =? 224 then between 160 191 b1
  else if b0 =? 237 then between 128 159 b1
  else continues b1.
Definition second4 (b0 b1 : N) : bool :=
  if b0 =? 240 then between 144 191 b1
  else if b0 =? 244 then between 128 143 b1
  else continues b1.

(** One character, or the bytes left behind an ill-formed part. *)
Inductive piece := PChar (c : char) (rest : bytes) | PBad (rest : bytes).
Definition next_piece (b0 : N) (r0 : bytes) : piece :=
  if b0 <? 128 then PChar b0 r0
  else if between 194 223 b0 then
    match r0 with
    | b1 :: r1 => if continues b1 then PChar ((b0 - 192) * 64 + (b1 - 128)) r1 else PBad r0
    | [] => PBad r0
    end
  else if between 224 239 b0 then
    match r0 with
    | b1 :: r1 =>
        if second3 b0 b1 then
          match r1 with
          | b2 :: r2 =>
              if continues b2 then PChar ((b0 - 224) * 4096 + (b1 - 128) * 64 + (b2 - 128)) r2 else PBad r1
          | [] => PBad r1
          end
        else PBad r0
    | [] => PBad r0
    end
  else if between 240 244 b0 then
    match r0 with
    | b1 :: r1 =>
        if second4 b0 b1 then
          match r1 with
          | b2 :: r2 =>
              if continues b2 then
                match r2 with
                | b3 :: r3 =>
                    if continues b3
                    then PChar ((b0 - 240) * 262144 + (b1 - 128) * 4096 + (b2 - 128) * 64 + (b3 - 128)) r3
                    else PBad r2
                | [] => PBad r2
                end
              else PBad r1
          | [] => PBad r1
          end
        else PBad r0
    | [] => PBad r0
    end
  else PBad r0.

(** [String::from_utf8]: [None] is [Err]. A piece takes at least one byte, so that the number of
    bytes is enough fuel. *)
Fixpoint decode_with (fuel : nat) (b : bytes) : option text :=
  match b with
  | [] => Some []
  | b0 :: r0 =>
      match fuel with
      | O => None
      | S fuel' =>
          match next_piece b0 r0 with
          | PChar c r => option_map (cons c) (decode_with fuel' r)
          | PBad _ => None
          end
      end
  end.
Definition decode (b : bytes) : option text := decode_with (length b) b.

(** [Path::display] on Unix: ill-formed parts are shown as U+FFFD ([Utf8Chunks]). *)
Fixpoint lossy_with (fuel : nat) (b : bytes) : text :=
  match b with
  | [] => []
  | b0 :: r0 =>
      match fuel with
      | O => []
      | S fuel' =>
          match next_piece b0 r0 with
          | PChar c r => c :: lossy_with fuel' r
          | PBad r => 65533 :: lossy_with fuel' r
          end
      end
  end.
Definition display (b : bytes) : text := lossy_with (length b) b.
