(** Model of /repo/src/FastNoise/Base64.h.
    Characters and bytes are integers 0..255 (character codes). *)
From Coq Require Import String Ascii.
From Coq Require Import ZArith List Bool.
From Verif Require Import Prelude.
Import ListNotations.
Open Scope Z_scope.

(** A C string literal as a list of character codes. *)
Definition codes (s : string) : list Z :=
  List.map (fun c => Z.of_nat (nat_of_ascii c)) (list_ascii_of_string s).

Definition chA  : Z := 65.  (* 'A' *)
Definition chAt : Z := 64.  (* '@' *)
Definition chEq : Z := 61.  (* '=' *)
Definition chNul : Z := 0.  (* '\0' *)

(** Base64.h:14-23  kEncodingTable *)
Definition kEncodingTable : list Z :=
  codes "ABCDEFGHIJKLMNOPQRSTUVWXYZabcdefghijklmnopqrstuvwxyz0123456789+/".

(** Base64.h:92-109  kDecodingTable *)
Definition kDecodingTable : list Z := [
  64; 64; 64; 64; 64; 64; 64; 64; 64; 64; 64; 64; 64; 64; 64; 64;
  64; 64; 64; 64; 64; 64; 64; 64; 64; 64; 64; 64; 64; 64; 64; 64;
  64; 64; 64; 64; 64; 64; 64; 64; 64; 64; 64; 62; 64; 64; 64; 63;
  52; 53; 54; 55; 56; 57; 58; 59; 60; 61; 64; 64; 64; 0; 64; 64;
  64; 0; 1; 2; 3; 4; 5; 6; 7; 8; 9; 10; 11; 12; 13; 14;
  15; 16; 17; 18; 19; 20; 21; 22; 23; 24; 25; 64; 64; 64; 64; 64;
  64; 26; 27; 28; 29; 30; 31; 32; 33; 34; 35; 36; 37; 38; 39; 40;
  41; 42; 43; 44; 45; 46; 47; 48; 49; 50; 51; 64; 64; 64; 64; 64;
  64; 64; 64; 64; 64; 64; 64; 64; 64; 64; 64; 64; 64; 64; 64; 64;
  64; 64; 64; 64; 64; 64; 64; 64; 64; 64; 64; 64; 64; 64; 64; 64;
  64; 64; 64; 64; 64; 64; 64; 64; 64; 64; 64; 64; 64; 64; 64; 64;
  64; 64; 64; 64; 64; 64; 64; 64; 64; 64; 64; 64; 64; 64; 64; 64;
  64; 64; 64; 64; 64; 64; 64; 64; 64; 64; 64; 64; 64; 64; 64; 64;
  64; 64; 64; 64; 64; 64; 64; 64; 64; 64; 64; 64; 64; 64; 64; 64;
  64; 64; 64; 64; 64; 64; 64; 64; 64; 64; 64; 64; 64; 64; 64; 64;
  64; 64; 64; 64; 64; 64; 64; 64; 64; 64; 64; 64; 64; 64; 64; 64 ].

(** Base64.h:25-27  the locals captured by [appendChar]: the result string
    and the current number of consecutive 'A's. *)
Record enc_state := { e_ret : list Z; e_as : Z }.

(** Base64.h:35-36, 46-47: overwrite the last two characters with '@' and the
    count character [kEncodingTable[consecutiveAs - 3]]. *)
Definition overwrite_tail (ret : list Z) (cas : Z) : res (list Z) :=
  ret1 <- wr ret (length ret - 2) chAt ;
  c <- rd kEncodingTable (Z.to_nat (cas - 3)) ;
  wr ret1 (length ret1 - 1) c.

(** Base64.h:28-55  appendChar *)
Definition append_char (st : enc_state) (c : Z) : res enc_state :=
  if c =? chA then
    let cas := e_as st + 1 in                       (* consecutiveAs++ *)
    if e_as st <=? 1 then                           (* old value <= 1  *)
      Ok {| e_ret := e_ret st ++ [chA]; e_as := cas |}
    else if cas >=? 64 + 2 then                     (* std::size(kEncodingTable) + 2 *)
      ret <- overwrite_tail (e_ret st) cas ;
      Ok {| e_ret := ret ++ [chA]; e_as := 1 |}
    else Ok {| e_ret := e_ret st; e_as := cas |}
  else
    ret <- (if e_as st >=? 3 then overwrite_tail (e_ret st) (e_as st) else Ok (e_ret st)) ;
    Ok {| e_ret := if c =? chNul then ret else ret ++ [c]; e_as := 0 |}.

(** kEncodingTable[v] then appendChar *)
Definition append_code (st : enc_state) (v : Z) : res enc_state :=
  c <- rd kEncodingTable (Z.to_nat v) ; append_char st c.

(** Base64.h:59-65  the main loop; [fuel] bounds the iterations. Returns the
    final [i]. [inLen - 2] is size_t arithmetic and wraps. *)
Fixpoint enc_loop (fuel : nat) (data : list Z) (i : nat) (st : enc_state) : res (nat * enc_state) :=
  match fuel with
  | O => NoFuel
  | S fuel' =>
    if Z.of_nat i <? u64 (Z.of_nat (length data) - 2) then
      d0 <- rd data i ;
      d1 <- rd data (i + 1) ;
      d2 <- rd data (i + 2) ;
      st <- append_code st (Z.land (Z.shiftr d0 2) 63) ;
      st <- append_code st (Z.lor (Z.shiftl (Z.land d0 3) 4) (Z.shiftr (Z.land d1 240) 4)) ;
      st <- append_code st (Z.lor (Z.shiftl (Z.land d1 15) 2) (Z.shiftr (Z.land d2 192) 6)) ;
      st <- append_code st (Z.land d2 63) ;
      enc_loop fuel' data (i + 3) st
    else Ok (i, st)
  end.

(** Base64.h:12-88  Encode *)
Definition encode (data : list Z) : res (list Z) :=
  ' (i, st) <- enc_loop (S (length data)) data 0 {| e_ret := []; e_as := 0 |} ;
  st <- (if (i <? length data)%nat then
           d0 <- rd data i ;
           st <- append_code st (Z.land (Z.shiftr d0 2) 63) ;
           st <- (if (i =? length data - 1)%nat then
                    st <- append_code st (Z.shiftl (Z.land d0 3) 4) ;
                    append_char st chEq
                  else
                    d1 <- rd data (i + 1) ;
                    st <- append_code st (Z.lor (Z.shiftl (Z.land d0 3) 4) (Z.shiftr (Z.land d1 240) 4)) ;
                    append_code st (Z.shiftl (Z.land d1 15) 2)) ;
           append_char st chEq
         else append_char st chNul) ;
  Ok (e_ret st).

(** A NUL-terminated C string with contents [s]: reading at the length gives
    the terminator, reading beyond it is undefined behaviour. *)
Definition rd_cstr (s : list Z) (i : nat) : res Z := rd (s ++ [chNul]) i.

(** kDecodingTable[(unsigned char)c] *)
Definition dec_char (c : Z) : res Z := rd kDecodingTable (Z.to_nat (u8 c)).

(** Base64.h:112-134  first pass: [None] is the early [return {}]; otherwise
    the final (rawLen, decompLen). *)
Fixpoint dec_count (fuel : nat) (s : list Z) (raw decomp : nat) : res (option (nat * nat)) :=
  match fuel with
  | O => NoFuel
  | S fuel' =>
    c <- rd_cstr s raw ;
    if c =? chNul then Ok (Some (raw, decomp))
    else if c =? chAt then
      n <- rd_cstr s (raw + 1) ;
      a <- dec_char n ;
      if a =? 64 then Ok None
      else dec_count fuel' s (raw + 1) (decomp + Z.to_nat a + 2)
    else dec_count fuel' s (raw + 1) (decomp + 1)
  end.

(** Base64.h:136-148  output length *)
Definition dec_outlen (s : list Z) (raw decomp : nat) : res nat :=
  let outLen := (decomp / 4 * 3)%nat in
  l <- rd_cstr s (raw - 1) ;
  if l =? chEq then
    l2 <- rd_cstr s (raw - 2) ;
    if l2 =? chEq then Ok (outLen - 1 - 1)%nat else Ok (outLen - 1)%nat
  else Ok outLen.

(** Base64.h:159-176  one character of the current block: consumes either a
    pending 'A' or input. State is (i, consecutiveAs). *)
Definition dec_fetch (s : list Z) (i cas : nat) : res (Z * nat * nat) :=
  if (0 <? cas)%nat then Ok (chA, i, (cas - 1)%nat)
  else
    c <- rd_cstr s i ;
    if c =? chAt then
      n <- rd_cstr s (i + 1) ;
      a <- dec_char n ;
      Ok (chA, (i + 2)%nat, (Z.to_nat a + 2)%nat)
    else Ok (c, (i + 1)%nat, 0%nat).

(** Base64.h:185-190  the guarded writes [if (j < outLen) out[j++] = b] *)
Definition put (out : list Z) (j outLen : nat) (b : Z) : res (list Z * nat) :=
  if (j <? outLen)%nat then out' <- wr out j b ; Ok (out', (j + 1)%nat)
  else Ok (out, j).

(** Base64.h:153-191  second pass *)
Fixpoint dec_loop (fuel : nat) (s : list Z) (raw outLen i j cas : nat) (out : list Z) : res (list Z) :=
  match fuel with
  | O => NoFuel
  | S fuel' =>
    if (i <? raw)%nat || (0 <? cas)%nat then
      ' (b0, i, cas) <- dec_fetch s i cas ;
      ' (b1, i, cas) <- dec_fetch s i cas ;
      ' (b2, i, cas) <- dec_fetch s i cas ;
      ' (b3, i, cas) <- dec_fetch s i cas ;
      a <- dec_char b0 ;
      b <- dec_char b1 ;
      c <- dec_char b2 ;
      d <- dec_char b3 ;
      let triple := u32 (u32 (Z.shiftl a (3*6)) + u32 (Z.shiftl b (2*6)) + u32 (Z.shiftl c (1*6)) + u32 (Z.shiftl d (0*6))) in
      ' (out, j) <- put out j outLen (Z.land (Z.shiftr triple (2*8)) 255) ;
      ' (out, j) <- put out j outLen (Z.land (Z.shiftr triple (1*8)) 255) ;
      ' (out, j) <- put out j outLen (Z.land (Z.shiftr triple (0*8)) 255) ;
      dec_loop fuel' s raw outLen i j cas out
    else Ok out
  end.

(** Base64.h:90-193  Decode.  [s] is the contents of the C string, without
    terminator and without embedded NULs. *)
Definition decode (s : list Z) : res (list Z) :=
  r <- dec_count (S (length s)) s 0 0 ;
  match r with
  | None => Ok []
  | Some (raw, decomp) =>
    if (decomp / 4 * 3 =? 0)%nat || negb (decomp mod 4 =? 0)%nat then Ok []
    else
      outLen <- dec_outlen s raw decomp ;
      dec_loop (S decomp) s raw outLen 0 0 0 (repeat 0 outLen)
  end.
