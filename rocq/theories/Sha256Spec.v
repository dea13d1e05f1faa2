(** The compression function of SHA-256, from FIPS 180-4 (sections 2.2.2, 4.1.2,
    4.2.2, 5.3.3 and 6.2.2).  Models nothing of /repo. *)
From Coq Require Import NArith List.
Import ListNotations.
Local Open Scope N_scope.

(** Words are numbers below 2^32. *)
Definition word := N.
Definition modulus : N := 2 ^ 32.
(** Addition modulo 2^32. *)
Definition wadd (x y : word) : word := (x + y) mod modulus.
(** 2.2.2: the right shift and the rotate right operation. *)
Definition SHR (n : N) (x : word) : word := N.shiftr x n.
Definition ROTR (n : N) (x : word) : word := N.lor (N.shiftr x n) (N.shiftl x (32 - n) mod modulus).
Definition wnot (x : word) : word := N.ldiff (N.ones 32) x.

(** 4.1.2 *)
Definition Ch (x y z : word) : word := N.lxor (N.land x y) (N.land (wnot x) z).
Definition Maj (x y z : word) : word := N.lxor (N.lxor (N.land x y) (N.land x z)) (N.land y z).
Definition Sigma0 (x : word) : word := N.lxor (N.lxor (ROTR 2 x) (ROTR 13 x)) (ROTR 22 x).
Definition Sigma1 (x : word) : word := N.lxor (N.lxor (ROTR 6 x) (ROTR 11 x)) (ROTR 25 x).
Definition sigma0 (x : word) : word := N.lxor (N.lxor (ROTR 7 x) (ROTR 18 x)) (SHR 3 x).
Definition sigma1 (x : word) : word := N.lxor (N.lxor (ROTR 17 x) (ROTR 19 x)) (SHR 10 x).

(** 4.2.2 *)
Definition K256 : list word := [
  0x428a2f98; 0x71374491; 0xb5c0fbcf; 0xe9b5dba5; 0x3956c25b; 0x59f111f1; 0x923f82a4; 0xab1c5ed5;
  0xd807aa98; 0x12835b01; 0x243185be; 0x550c7dc3; 0x72be5d74; 0x80deb1fe; 0x9bdc06a7; 0xc19bf174;
  0xe49b69c1; 0xefbe4786; 0x0fc19dc6; 0x240ca1cc; 0x2de92c6f; 0x4a7484aa; 0x5cb0a9dc; 0x76f988da;
  0x983e5152; 0xa831c66d; 0xb00327c8; 0xbf597fc7; 0xc6e00bf3; 0xd5a79147; 0x06ca6351; 0x14292967;
  0x27b70a85; 0x2e1b2138; 0x4d2c6dfc; 0x53380d13; 0x650a7354; 0x766a0abb; 0x81c2c92e; 0x92722c85;
  0xa2bfe8a1; 0xa81a664b; 0xc24b8b70; 0xc76c51a3; 0xd192e819; 0xd6990624; 0xf40e3585; 0x106aa070;
  0x19a4c116; 0x1e376c08; 0x2748774c; 0x34b0bcb5; 0x391c0cb3; 0x4ed8aa4a; 0x5b9cca4f; 0x682e6ff3;
  0x748f82ee; 0x78a5636f; 0x84c87814; 0x8cc70208; 0x90befffa; 0xa4506ceb; 0xbef9a3f7; 0xc67178f2].
(** 5.3.3 *)
Definition H256 : list word := [
  0x6a09e667; 0xbb67ae85; 0x3c6ef372; 0xa54ff53a; 0x510e527f; 0x9b05688c; 0x1f83d9ab; 0x5be0cd19].

(** 6.2.2, step 1: the message schedule; [w] is the words so far. *)
Definition schedule_word (w : list word) (t : nat) : word :=
  wadd (wadd (sigma1 (nth (t - 2) w 0)) (nth (t - 7) w 0)) (wadd (sigma0 (nth (t - 15) w 0)) (nth (t - 16) w 0)).
Definition schedule (M : list word) : list word :=
  fold_left (fun w t => w ++ [schedule_word w t]) (seq 16 48) M.

(** Steps 2-4. *)
Record working := Working { va : word; vb : word; vc : word; vd : word; ve : word; vf : word; vg : word; vh : word }.
Definition round (s : working) (k w : word) : working :=
  let T1 := wadd (wadd (wadd (vh s) (Sigma1 (ve s))) (wadd (Ch (ve s) (vf s) (vg s)) k)) w in
  let T2 := wadd (Sigma0 (va s)) (Maj (va s) (vb s) (vc s)) in
  Working (wadd T1 T2) (va s) (vb s) (vc s) (wadd (vd s) T1) (ve s) (vf s) (vg s).
Definition rounds (s : working) (W : list word) (n : nat) : working :=
  fold_left (fun s t => round s (nth t K256 0) (nth t W 0)) (seq 0 n) s.
Definition working_of (H : list word) : working :=
  Working (nth 0 H 0) (nth 1 H 0) (nth 2 H 0) (nth 3 H 0) (nth 4 H 0) (nth 5 H 0) (nth 6 H 0) (nth 7 H 0).
Definition sha256_compress (H M : list word) : list word :=
  let s0 := working_of H in
  let s := rounds s0 (schedule M) 64 in
  [wadd (va s) (va s0); wadd (vb s) (vb s0); wadd (vc s) (vc s0); wadd (vd s) (vd s0);
   wadd (ve s) (ve s0); wadd (vf s) (vf s0); wadd (vg s) (vg s0); wadd (vh s) (vh s0)].

(** A string of bits is read as words of 32 bits, the most significant first
    (3.1). *)
Definition word_of_bits (b : list bool) : word := fold_left (fun w (c : bool) => 2 * w + (if c then 1 else 0)) b 0.
Definition words_of_bits (n : nat) (b : list bool) : list word :=
  map (fun i => word_of_bits (firstn 32 (skipn (32 * i) b))) (seq 0 n).

(** The test vector of FIPS 180-4 (the one-block message "abc"). *)
Example sha256_abc :
  sha256_compress H256 [0x61626380; 0; 0; 0; 0; 0; 0; 0; 0; 0; 0; 0; 0; 0; 0; 0x18] =
  [0xba7816bf; 0x8f01cfea; 0x414140de; 0x5dae2223; 0xb00361a3; 0x96177a9c; 0xb410ff61; 0xf20015ad].
Proof. vm_compute. reflexivity. Qed.
