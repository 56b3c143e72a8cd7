(** Model of the block and log checksum, util/x1764.cc.

    uint64_t arithmetic is written modulo 2^64; [int len] is the length of the
    byte list. *)
From Verif Require Import Base Bytes.
Open Scope N_scope.

Definition w64 (x : N) : N := x mod 2 ^ 64.

(** c*17 + x in uint64_t. *)
Definition mul17add (c x : N) : N := w64 (c * 17 + x).

(** ~((c & 0xFFFFFFFF) ^ (c>>32)) as a uint32_t, util/x1764.cc:65, 95, 243. *)
Definition fold32 (c : N) : N :=
  N.lxor (2 ^ 32 - 1)
         (N.lxor (N.land c (2 ^ 32 - 1)) (N.shiftr c 32) mod 2 ^ 32).

(** The tail loops (x1764.cc:57-62, 89-92, 210-214):
    input |= buf[i] << (8*i), starting at byte offset [i]. *)
Fixpoint or_bytes (input i : N) (bs : bytes) : N :=
  match bs with
  | [] => input
  | b :: bs' => or_bytes (N.lor input (w64 (N.shiftl b (8 * i)))) (i + 1) bs'
  end.

(** while (len>=8) { c = c*17 + *(uint64_t* )buf; .. }
    (x1764.cc:50-55, 83-87, 199-203): the sum and the bytes left. *)
Fixpoint words_loop (c : N) (bs : bytes) : N * bytes :=
  match bs with
  | b0 :: b1 :: b2 :: b3 :: b4 :: b5 :: b6 :: b7 :: rest =>
      words_loop (mul17add c (le_val [b0; b1; b2; b3; b4; b5; b6; b7])) rest
  | _ => (c, bs)
  end.

(** x1764.cc:46-66 toku_x1764_memory_simple. *)
Definition x1764_memory_simple (bs : bytes) : N :=
  let '(c, rest) := words_loop 0 bs in
  fold32 (if is_nil rest then c else mul17add c (or_bytes 0 0 rest)).

(** s*17^4 + x in uint64_t. *)
Definition mul17_4add (s x : N) : N := w64 (s * (17 * 17 * 17 * 17) + x).

(** The unrolled loop x1764.cc:73-80. *)
Fixpoint words4_loop (a b c d : N) (bs : bytes) : (N * N * N * N) * bytes :=
  match bs with
  | a0 :: a1 :: a2 :: a3 :: a4 :: a5 :: a6 :: a7 ::
    b0 :: b1 :: b2 :: b3 :: b4 :: b5 :: b6 :: b7 ::
    c0 :: c1 :: c2 :: c3 :: c4 :: c5 :: c6 :: c7 ::
    d0 :: d1 :: d2 :: d3 :: d4 :: d5 :: d6 :: d7 :: rest =>
      words4_loop (mul17_4add a (le_val [a0; a1; a2; a3; a4; a5; a6; a7]))
                  (mul17_4add b (le_val [b0; b1; b2; b3; b4; b5; b6; b7]))
                  (mul17_4add c (le_val [c0; c1; c2; c3; c4; c5; c6; c7]))
                  (mul17_4add d (le_val [d0; d1; d2; d3; d4; d5; d6; d7]))
                  rest
  | _ => ((a, b, c, d), bs)
  end.

(** x1764.cc:68-96 toku_x1764_memory. *)
Definition x1764_memory (bs : bytes) : N :=
  let '((a, b, c, d), rest) := words4_loop 0 0 0 0 bs in
  let sum := w64 (a * 17 * 17 * 17 + b * 17 * 17 + c * 17 + d) in
  let '(sum, tail) := words_loop sum rest in
  fold32 (if is_nil tail then sum else mul17add sum (or_bytes 0 0 tail)).

(** util/x1764.h:57-61 struct x1764. *)
Record x1764 := mkX { x_sum : N; x_input : N; x_n : N }.

(** x1764.cc:99-103 toku_x1764_init. *)
Definition x1764_init : x1764 := mkX 0 0 0.

(** The loop x1764.cc:146-157: sum, input and the bytes left. *)
Fixpoint add_words_loop (n sum input : N) (bs : bytes) : N * N * bytes :=
  match bs with
  | b0 :: b1 :: b2 :: b3 :: b4 :: b5 :: b6 :: b7 :: rest =>
      let thisv := le_val [b0; b1; b2; b3; b4; b5; b6; b7] in
      let input1 := N.lor input (w64 (N.shiftl thisv (8 * n))) in
      add_words_loop n (mul17add sum input1)
                     (N.shiftr thisv (8 * (8 - n))) rest
  | _ => (sum, input, bs)
  end.

(** The loop x1764.cc:179-184. *)
Fixpoint add_bytes_loop (n input : N) (bs : bytes) : N * N * bytes :=
  match bs with
  | [] => (n, input, [])
  | b :: bs' =>
      if n <? 8 then
        add_bytes_loop (n + 1) (N.lor input (w64 (N.shiftl b (8 * n)))) bs'
      else (n, input, bs)
  end.

(** x1764.cc:199-234: the aligned end of toku_x1764_add. *)
Definition add_aligned (sum : N) (bs : bytes) : x1764 :=
  let '(sum, rest) := words_loop sum bs in
  mkX sum (or_bytes 0 0 rest) (len rest).

(** x1764.cc:105-236 toku_x1764_add. *)
Definition x1764_add (l : x1764) (bs : bytes) : x1764 :=
  let n := x_n l in
  match bs with
  | [b] =>
      let input := N.lor (x_input l) (w64 (N.shiftl b (8 * n))) in
      if n + 1 =? 8 then mkX (mul17add (x_sum l) input) 0 0
      else mkX (x_sum l) input (n + 1)
  | [b0; b1] =>
      let input := x_input l in
      let thisv := le_val [b0; b1] in
      if n =? 7 then
        mkX (mul17add (x_sum l) (N.lor input (w64 (N.shiftl thisv (8 * 7)))))
            (N.shiftr thisv 8) 1
      else if n =? 6 then
        mkX (mul17add (x_sum l) (N.lor input (w64 (N.shiftl thisv (8 * 6))))) 0 0
      else
        mkX (x_sum l) (N.lor input (w64 (N.shiftl thisv (8 * n)))) (n + 2)
  | _ =>
      if n =? 0 then add_aligned (x_sum l) bs
      else
        let '(sum, input, bs) := add_words_loop n (x_sum l) (x_input l) bs in
        let '(sum, input, n, bs) :=
          match bs with
          | b0 :: b1 :: b2 :: b3 :: rest =>
              let thisv := le_val [b0; b1; b2; b3] in
              if n <? 4 then
                (sum, N.lor input (w64 (N.shiftl thisv (8 * n))), n + 4, rest)
              else
                let input := N.lor input (w64 (N.shiftl thisv (8 * n))) in
                (mul17add sum input, N.shiftr thisv (8 * (8 - n)), n - 4, rest)
          | _ => (sum, input, n, bs)
          end in
        let '(n, input, bs) := add_bytes_loop n input bs in
        if n <? 8 then mkX sum input n
        else add_aligned (mul17add sum input) bs
  end.

(** x1764.cc:237-244 toku_x1764_finish. *)
Definition x1764_finish (l : x1764) : N :=
  fold32 (if 0 <? x_n l then mul17add (x_sum l) (x_input l) else x_sum l).
