(** * LzfSpec: the LZF format, independently of the code

    A compressed text is a sequence of tokens: literal runs of 1 to 32 bytes and back references
    (distance 1..8192, length 3..264), see lzf_c.c:89-96. *)
From Verif Require Import Base.

Inductive tok := TLit (l : gostr) | TRef (dist len : nat).
(** [n] times append the byte [d] positions back; the copy may overlap what it appends *)
Fixpoint copy (acc : gostr) (d n : nat) : gostr :=
  match n with
  | O => acc
  | S n => match acc !! (length acc - d)%nat with Some b => copy (acc ++ [b]) d n | None => acc end
  end.
(** the text denoted by tokens, after [acc] *)
Fixpoint text (acc : gostr) (ts : list tok) : gostr :=
  match ts with
  | [] => acc
  | TLit l :: r => text (acc ++ l) r
  | TRef d n :: r => text (copy acc d n) r
  end.
(** well-formed tokens after a text of [n] bytes: a reference does not reach before the start *)
Fixpoint tok_ok (n : nat) (ts : list tok) : Prop :=
  match ts with
  | [] => True
  | TLit l :: r => (1 <= length l <= 32)%nat /\ tok_ok (n + length l) r
  | TRef d m :: r => (1 <= d <= n)%nat /\ Z.of_nat d <= 8192 /\ (3 <= m <= 264)%nat /\ tok_ok (n + m) r
  end.
Definition byte_of (n : nat) : byte := z2b (Z.of_nat n).
Definition enc_tok (t : tok) : gostr :=
  match t with
  | TLit l => byte_of (length l - 1) :: l
  | TRef d m =>
    let o := (d - 1)%nat in
    let l := (m - 2)%nat in
    if Nat.ltb l 7 then [byte_of (l * 32 + o / 256); byte_of (o mod 256)]
    else [byte_of (7 * 32 + o / 256); byte_of (l - 7); byte_of (o mod 256)]
  end.
Definition encode (ts : list tok) : gostr := concat (map enc_tok ts).
