(** Model of arg-capture-io/src/base64.cpp. Bytes and characters are integers in
    [0,256); the mutable group buffer [char_array_3]/[char_array_4] with its
    index [i] is the list [buf] of the characters collected so far. *)
From Coq Require Export ZArith List Bool.
Export ListNotations.
Local Open Scope Z_scope.

(** base64_chars, base64.cpp:34-37: A-Z a-z 0-9 + / *)
Definition base64_chars : list Z :=
  map Z.of_nat (seq 65 26) ++ map Z.of_nat (seq 97 26) ++ map Z.of_nat (seq 48 10) ++ [43; 47].
Definition eq_char : Z := 61.
(** conversion to unsigned char *)
Definition uchar (z : Z) : Z := z mod 256.
(** is_base64, base64.cpp:39 (isalnum in the "C" locale). *)
Definition is_base64 (c : Z) : bool :=
  ((48 <=? c) && (c <=? 57)) || ((65 <=? c) && (c <=? 90)) || ((97 <=? c) && (c <=? 122)) || (c =? 43) || (c =? 47).
(** base64_chars[k]; every k passed is below 64 *)
Definition enc_char (k : Z) : Z := nth (Z.to_nat k) base64_chars 0.
(** base64_chars.find(c), assigned to an unsigned char: npos becomes 255 *)
Fixpoint find_from (k : Z) (l : list Z) (c : Z) : Z :=
  match l with [] => 255 | x :: r => if x =? c then k else find_from (k + 1) r c end.
Definition dec_char (c : Z) : Z := uchar (find_from 0 base64_chars c).

(** base64.cpp:51-54 / 64-67 *)
Definition enc4 (a b c : Z) : list Z :=
  [ Z.shiftr (Z.land a 252) 2;
    uchar (Z.shiftl (Z.land a 3) 4 + Z.shiftr (Z.land b 240) 4);
    uchar (Z.shiftl (Z.land b 15) 2 + Z.shiftr (Z.land c 192) 6);
    Z.land c 63 ].
(** base64.cpp:90-92 / 104-106 *)
Definition dec3 (a b c d : Z) : list Z :=
  [ uchar (Z.shiftl a 2 + Z.shiftr (Z.land b 48) 4);
    uchar (Z.shiftl (Z.land b 15) 4 + Z.shiftr (Z.land c 60) 2);
    uchar (Z.shiftl (Z.land c 3) 6 + d) ].

(** The tail of base64_encode, base64.cpp:61-72 *)
Definition enc_tail (buf : list Z) : list Z :=
  match buf with
  | [] => []
  | _ => let g n := nth n buf 0 in
         map enc_char (firstn (length buf + 1) (enc4 (g 0%nat) (g 1%nat) (g 2%nat))) ++ repeat eq_char (3 - length buf)
  end.
(** base64_encode, base64.cpp:48-74 *)
Fixpoint enc_loop (buf bs : list Z) : list Z :=
  match bs with
  | [] => enc_tail buf
  | b :: r =>
      match buf ++ [b] with
      | [x; y; z] => map enc_char (enc4 x y z) ++ enc_loop [] r
      | buf' => enc_loop buf' r
      end
  end.
(** base64_encode(bytes, unsigned int in_len), base64.cpp:41: the length is
    converted to 32 bits at the call. *)
Definition base64_encode (bs : list Z) : list Z :=
  enc_loop [] (if Z.of_nat (length bs) <? 2 ^ 32 then bs
               else firstn (Z.to_nat (Z.of_nat (length bs) mod 2 ^ 32)) bs).

(** The tail of base64_decode, base64.cpp:99-109: missing characters are 0,
    whose find is npos. *)
Definition dec_tail (buf : list Z) : list Z :=
  match buf with
  | [] => []
  | _ => let g n := dec_char (nth n buf 0) in
         firstn (length buf - 1) (dec3 (g 0%nat) (g 1%nat) (g 2%nat) (g 3%nat))
  end.
(** base64_decode, base64.cpp:84-111: stops at '=' or at any character outside
    the alphabet. *)
Fixpoint dec_loop (buf s : list Z) : list Z :=
  match s with
  | [] => dec_tail buf
  | c :: r =>
      if (c =? eq_char) || negb (is_base64 c) then dec_tail buf
      else match buf ++ [c] with
           | [w; x; y; z] => dec3 (dec_char w) (dec_char x) (dec_char y) (dec_char z) ++ dec_loop [] r
           | buf' => dec_loop buf' r
           end
  end.
(** [int in_len = size()], base64.cpp:77: from 2^31 characters on the counter
    overflows; that is undefined behaviour and modelled as [None]. *)
Definition base64_decode (s : list Z) : option (list Z) :=
  if Z.of_nat (length s) <? 2 ^ 31 then Some (dec_loop [] s) else None.
