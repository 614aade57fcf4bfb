(** * LzfModel: LZF compression (redis/lzf/lzf_c.c, lzf_d.c, lzfP.h, lzf.go)

    The C code at the level of single memory accesses: a pointer into a buffer is its index (an
    integer), every read and write is checked against the buffer and yields [MFault] when outside.
    Configuration as in lzfP.h on a 64-bit Linux: HLOG 16, VERY_FAST 1, ULTRA_FAST 0, INIT_HTAB 0,
    CHECK_INPUT 1, LZF_USE_OFFSETS 1, no lzf_movsb. The hash table lives on the stack and is not
    initialised: its first content is a parameter. Comparing pointers that lie outside the buffer
    compares their indices. [MFuel] is an artefact of bounded recursion and proved impossible. *)
From Verif Require Import Base.

Inductive mres (A : Type) := MOk (a : A) | MFault | MFuel.
Arguments MOk {A}. Arguments MFault {A}. Arguments MFuel {A}.
Definition mbind {A B} (x : mres A) (k : A -> mres B) : mres B := match x with MOk a => k a | MFault => MFault | MFuel => MFuel end.
Notation "x <~ a ;; b" := (mbind a (fun x => b)) (at level 80, a at level 79, b at level 200, right associativity).

(** reading and writing one byte *)
Definition get (l : gostr) (i : Z) : mres Z :=
  if i <? 0 then MFault else match l !! Z.to_nat i with Some b => MOk (b2z b) | None => MFault end.
Definition put (l : gostr) (i v : Z) : mres gostr :=
  if (0 <=? i) && (i <? zlen l) then MOk (<[Z.to_nat i := z2b (v mod 256)]> l) else MFault.
(** conversion to unsigned int, unsigned long *)
Definition u32 (x : Z) : Z := x mod 2 ^ 32.
Definition u64 (x : Z) : Z := x mod 2 ^ 64.

(** ** lzf_compress *)
(** lzf_c.c:48-53: FRST, NEXT, IDX *)
Definition frst (inp : gostr) (p : Z) : mres Z := a <~ get inp p;; b <~ get inp (p + 1);; MOk (Z.lor (Z.shiftl a 8) b).
Definition next (h : Z) (inp : gostr) (p : Z) : mres Z := c <~ get inp (p + 2);; MOk (Z.lor (u32 (Z.shiftl h 8)) c).
Definition idx (h : Z) : Z := Z.land (Z.shiftr h 8 - h * 5) 65535.
Definition upd (t : Z -> Z) (i v : Z) : Z -> Z := fun j => if j =? i then v else t j.
(** lzf_c.c:74-76 *)
Definition max_lit : Z := 32.
Definition max_off : Z := 8192.
Definition max_ref : Z := 264.

(** :178-196, [k] of the sixteen comparisons left; the boolean tells whether a break was taken *)
Fixpoint ext16 (k : nat) (inp : gostr) (ref ip len : Z) : mres (Z * bool) :=
  match k with
  | O => MOk (len, false)
  | S k => a <~ get inp (ref + (len + 1));; b <~ get inp (ip + (len + 1));;
           if a =? b then ext16 k inp ref ip (len + 1) else MOk (len + 1, true)
  end.
(** :199-201 *)
Fixpoint ext_slow (fuel : nat) (inp : gostr) (ref ip len maxlen : Z) : mres Z :=
  match fuel with
  | O => MFuel
  | S f => if len + 1 <? maxlen then
             a <~ get inp (ref + (len + 1));; b <~ get inp (ip + (len + 1));;
             if a =? b then ext_slow f inp ref ip (len + 1) maxlen else MOk (len + 1)
           else MOk (len + 1)
  end.
(** :163-165,174-204: the value of len after the loop *)
Definition match_len (inp : gostr) (in_len ref ip : Z) : mres Z :=
  let m := u32 (in_len - ip - 2) in
  let maxlen := if m >? max_ref then max_ref else m in
  if maxlen >? 16 then
    x <~ ext16 16 inp ref ip 2;;
    if snd x : bool then MOk (fst x) else ext_slow 300 inp ref ip (fst x) maxlen
  else ext_slow 300 inp ref ip 2 maxlen.

Record cst := Cst { k_ip : Z; k_op : Z; k_lit : Z; k_hval : Z; k_out : gostr; k_tab : Z -> Z }.
(** :148-160: is there a match at [ref]? *)
Definition hit (inp : gostr) (ref ip : Z) : mres bool :=
  if (u64 (ip - ref - 1) <? max_off) && (0 <? ref) then
    a <~ get inp (ref + 2);; b <~ get inp (ip + 2);;
    if a =? b then
      a0 <~ get inp ref;; a1 <~ get inp (ref + 1);; b0 <~ get inp ip;; b1 <~ get inp (ip + 1);;
      MOk ((a0 =? b0) && (a1 =? b1))
    else MOk false
  else MOk false.
(** :140-270; [None] is [return 0] *)
Fixpoint cloop (fuel : nat) (inp : gostr) (in_len out_len : Z) (s : cst) : mres (option cst) :=
  match fuel with
  | O => MFuel
  | S f =>
    if k_ip s <? in_len - 2 then
      hval <~ next (k_hval s) inp (k_ip s);;
      let slot := idx hval in
      let ref := u32 (k_tab s slot) in
      let tab := upd (k_tab s) slot (u32 (k_ip s)) in
      h <~ hit inp ref (k_ip s);;
      if h : bool then
        let off := u64 (k_ip s - ref - 1) in
        let notlit := if k_lit s =? 0 then 1 else 0 in
        if (k_op s + 3 + 1 >=? out_len) && (k_op s - notlit + 3 + 1 >=? out_len) then MOk None
        else
          out1 <~ put (k_out s) (k_op s - k_lit s - 1) (k_lit s - 1);;
          let op1 := k_op s - notlit in
          len2 <~ match_len inp in_len ref (k_ip s);;
          let len := len2 - 2 in
          x <~ (if len <? 7 then
                  out2 <~ put out1 op1 (Z.shiftr off 8 + Z.shiftl len 5);; MOk (out2, op1 + 1)
                else
                  out2 <~ put out1 op1 (Z.shiftr off 8 + Z.shiftl 7 5);;
                  out3 <~ put out2 (op1 + 1) (len - 7);; MOk (out3, op1 + 2));;
          let '(out4, op4) := x in
          out5 <~ put out4 op4 off;;
          let op5 := op4 + 1 + 1 in
          let ip5 := k_ip s + 1 + (len + 1) in
          if ip5 >=? in_len - 2 then MOk (Some (Cst ip5 op5 0 hval out5 tab))
          else
            let ip6 := ip5 - 2 in
            h1 <~ frst inp ip6;;
            h2 <~ next h1 inp ip6;;
            h3 <~ next h2 inp (ip6 + 1);;
            cloop f inp in_len out_len
              (Cst (ip6 + 2) op5 0 h3 out5 (upd (upd tab (idx h2) (u32 ip6)) (idx h3) (u32 (ip6 + 1))))
      else
        if k_op s >=? out_len then MOk None
        else
          b <~ get inp (k_ip s);;
          out1 <~ put (k_out s) (k_op s) b;;
          let lit := k_lit s + 1 in
          let op := k_op s + 1 in
          if lit =? max_lit then
            out2 <~ put out1 (op - lit - 1) (lit - 1);;
            cloop f inp in_len out_len (Cst (k_ip s + 1) (op + 1) 0 hval out2 tab)
          else cloop f inp in_len out_len (Cst (k_ip s + 1) op lit hval out1 tab)
    else MOk (Some s)
  end.
(** :275-284, with [n] bytes left *)
Fixpoint ctail (n : nat) (inp : gostr) (ip op lit : Z) (out : gostr) : mres (Z * Z * gostr) :=
  match n with
  | O => MOk (op, lit, out)
  | S n =>
    b <~ get inp ip;;
    out1 <~ put out op b;;
    if lit + 1 =? max_lit then
      out2 <~ put out1 (op + 1 - (lit + 1) - 1) (lit + 1 - 1);; ctail n inp (ip + 1) (op + 2) 0 out2
    else ctail n inp (ip + 1) (op + 1) (lit + 1) out1
  end.
(** lzf_c.c:98-290; the result is the return value and the output buffer *)
Definition lzf_compress (inp : gostr) (in_len : Z) (out : gostr) (out_len : Z) (tab : Z -> Z) : mres (Z * gostr) :=
  if (in_len =? 0) || (out_len =? 0) then MOk (0, out)
  else
    hval <~ frst inp 0;;
    r <~ cloop (S (Z.to_nat in_len)) inp in_len out_len (Cst 0 1 0 hval out tab);;
    match r with
    | None => MOk (0, out)        (* the output is then ignored by the caller *)
    | Some s =>
      if k_op s + 3 >? out_len then MOk (0, out)
      else
        x <~ ctail (Z.to_nat (in_len - k_ip s)) inp (k_ip s) (k_op s) (k_lit s) (k_out s);;
        let '(op, lit, out1) := x in
        out2 <~ put out1 (op - lit - 1) (lit - 1);;
        MOk (op - (if lit =? 0 then 1 else 0), out2)
    end.

(** ** lzf_decompress *)
(** lzf_d.c:93-103: [n] bytes from the input *)
Fixpoint copy_lit (n : nat) (inp : gostr) (ip : Z) (out : gostr) (op : Z) : mres gostr :=
  match n with
  | O => MOk out
  | S n => b <~ get inp ip;; out1 <~ put out op b;; copy_lit n inp (ip + 1) out1 (op + 1)
  end.
(** :163-165, :170-180: [n] bytes from the output written so far, one by one *)
Fixpoint copy_ref (n : nat) (ref : Z) (out : gostr) (op : Z) : mres gostr :=
  match n with
  | O => MOk out
  | S n => b <~ get out ref;; out1 <~ put out op b;; copy_ref n (ref + 1) out1 (op + 1)
  end.
(** :157 memcpy *)
Definition copy_block (n : nat) (ref : Z) (out : gostr) (op : Z) : mres gostr :=
  if (0 <=? ref) && (ref + Z.of_nat n <=? zlen out) && (0 <=? op) && (op + Z.of_nat n <=? zlen out) then
    MOk (take (Z.to_nat op) out ++ take n (drop (Z.to_nat ref) out) ++ drop (Z.to_nat op + n) out)
  else MFault.
(** lzf_d.c:59-188 *)
Fixpoint dloop (fuel : nat) (inp : gostr) (in_len : Z) (out : gostr) (out_len ip op : Z) : mres (Z * gostr) :=
  match fuel with
  | O => MFuel
  | S f =>
    let continue out ip op := if ip <? in_len then dloop f inp in_len out out_len ip op else MOk (op, out) in
    ctrl <~ get inp ip;;
    let ip := ip + 1 in
    if ctrl <? 32 then
      let ctrl := ctrl + 1 in
      if op + ctrl >? out_len then MOk (0, out)
      else if ip + ctrl >? in_len then MOk (0, out)
      else out1 <~ copy_lit (Z.to_nat ctrl) inp ip out op;; continue out1 (ip + ctrl) (op + ctrl)
    else
      let len := Z.shiftr ctrl 5 in
      let ref := op - Z.shiftl (Z.land ctrl 31) 8 - 1 in
      if ip >=? in_len then MOk (0, out)
      else
        let back ip len :=
          lo <~ get inp ip;;
          let ref := ref - lo in
          let ip := ip + 1 in
          if op + len + 2 >? out_len then MOk (0, out)
          else if ref <? 0 then MOk (0, out)
          else
            out1 <~ (if (len >? 9) && (op >=? ref + (len + 2)) then copy_block (Z.to_nat (len + 2)) ref out op
                     else copy_ref (Z.to_nat (len + 2)) ref out op);;
            continue out1 ip (op + (len + 2)) in
        if len =? 7 then
          b <~ get inp ip;;
          if ip + 1 >=? in_len then MOk (0, out) else back (ip + 1) (len + b)
        else back ip len
  end.
Definition lzf_decompress (inp : gostr) (in_len : Z) (out : gostr) (out_len : Z) : mres (Z * gostr) :=
  dloop (S (Z.to_nat in_len)) inp in_len out out_len 0 0.

(** ** lzf.go *)
Definition zeros (n : Z) : gostr := replicate (Z.to_nat n) x00.
(** lzf.go:11-20 Compress; [MFault] also for the panic of [&input[0]] *)
Definition compress (s : gostr) (tab : Z -> Z) : mres gostr :=
  match s with
  | [] => MFault
  | _ =>
    r <~ lzf_compress s (u32 (zlen s)) (zeros (zlen s)) (u32 (zlen s)) tab;;
    if fst r =? 0 then MOk s else MOk (take (Z.to_nat (fst r)) (snd r))
  end.
(** lzf.go:22-30 DeCompress; [make] panics for a negative or huge length, [&decoded[0]] for zero *)
Definition decompress (s : gostr) (length : Z) : mres gostr :=
  match s with
  | [] => MFault
  | _ =>
    if (length <=? 0) || (length >? 2 ^ 48) then MFault
    else
      r <~ lzf_decompress s (u32 (zlen s)) (zeros length) (u32 length);;
      if fst r =? 0 then MOk s else MOk (snd r)
  end.
