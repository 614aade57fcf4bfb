(** * RespSpec: the RESP grammar, independently of the code

    [wire m s]: the byte string [s] is an encoding of the message [m] in the Redis
    serialization protocol (https://redis.io/topics/protocol): numbers are non-empty
    digit strings with an optional minus sign (leading zeros allowed), lines contain
    neither CR nor LF, the length of a bulk string counts its bytes, the count of an
    array its elements. *)
From Verif Require Import Base RespModel.

Definition digits (s : gostr) : Prop := s <> [] /\ Forall (fun b => 48 <= b2z b <= 57) s.
Fixpoint value (acc : Z) (s : gostr) : Z :=
  match s with [] => acc | b :: r => value (10 * acc + (b2z b - 48)) r end.
(** a natural number / an integer in decimal *)
Definition num_nat (n : Z) (s : gostr) : Prop := digits s /\ value 0 s = n.
Definition num_int (n : Z) (s : gostr) : Prop :=
  (digits s /\ value 0 s = n) \/ (exists r, s = z2b 45 :: r /\ digits r /\ - value 0 r = n).
Definition crlf : gostr := [z2b 13; z2b 10].
Definition one_line (s : gostr) : Prop := z2b 13 ∉ s /\ z2b 10 ∉ s.
(** Go's int *)
Definition int64 (n : Z) : Prop := - 2 ^ 63 <= n < 2 ^ 63.

Inductive wire : msg -> gostr -> Prop :=
| w_nil : wire MNil (bs "$-1" ++ crlf)
| w_bulk d s : num_nat (Z.of_nat (length s)) d -> wire (MBulk s) (bs "$" ++ d ++ crlf ++ s ++ crlf)
| w_simple s : one_line s -> wire (MSimple s) (bs "+" ++ s ++ crlf)
| w_error s : one_line s -> wire (MError s) (bs "-" ++ s ++ crlf)
| w_int n d : num_int n d -> int64 n -> wire (MInt n) (bs ":" ++ d ++ crlf)
| w_arr d l s : num_nat (Z.of_nat (length l)) d -> wires l s -> wire (MArr l) (bs "*" ++ d ++ crlf ++ s)
with wires : list msg -> gostr -> Prop :=
| ws_nil : wires [] []
| ws_cons m l s t : wire m s -> wires l t -> wires (m :: l) (s ++ t).

(** The messages that have an encoding. *)
Fixpoint encodable (m : msg) : Prop :=
  match m with
  | MNil | MBulk _ => True
  | MSimple s | MError s => one_line s
  | MInt n => int64 n
  | MArr l => fold_right (fun m P => encodable m /\ P) True l
  end.
