(** Model of the RSA helpers (src/qrisp/algorithms/shor/crypto_tools.py).  Bit strings are lists
    of booleans, first character first; strings are lists of character codes.  The factor p that
    [shors_alg] returns is an input. *)
From Verif.ModTools Require Import ModToolsModel.
From Coq Require Import ZArith List.
Import ListNotations.
Local Open Scope Z_scope.

(** crypto_tools.py:74-106 [rsa_encrypt]: Python's three-argument pow *)
Definition rsa_encrypt (e N m : Z) : Z := m ^ e mod N.

(** crypto_tools.py:57-71 [rsa_decrypt] with p = shors_alg(N); [None]: modinv raised *)
Definition private_key (e N p : Z) : option Z :=
  let q := N / p in
  let phi := (p - 1) * (q - 1) in
  modinv_py e phi.
Definition rsa_decrypt (e N c p : Z) : option Z :=
  match private_key e N p with Some d => Some (c ^ d mod N) | None => None end.

(** [bin(x)[2:]] for x >= 0 *)
Fixpoint bits_pos (x : positive) (acc : list bool) : list bool :=
  match x with
  | xH => true :: acc
  | xO y => bits_pos y (false :: acc)
  | xI y => bits_pos y (true :: acc)
  end.
Definition bin (x : Z) : list bool := match x with Zpos p => bits_pos p [] | _ => [false] end.
(** [str.zfill] *)
Definition zfill (w : nat) (s : list bool) : list bool := repeat false (w - length s) ++ s.
(** [int(s, 2)] *)
Definition int2 (s : list bool) : Z := fold_left (fun r b => 2 * r + (if b : bool then 1 else 0)) s 0.
(** [int.bit_length] *)
Definition bit_length (N : Z) : nat := match N with Z0 => O | _ => S (Z.to_nat (Z.log2 (Z.abs N))) end.

(** number of chunks [int(np.ceil(len / c))] for c > 0 *)
Definition nchunks (len c : nat) : nat := ((len + c - 1) / c)%nat.
Definition slice (s : list bool) (c i : nat) : list bool := firstn c (skipn (i * c) s).

(** crypto_tools.py:135-150 [rsa_encrypt_string]; characters below 128 ([bytearray(.., "ascii")]) *)
Definition message_bits (message : list Z) : list bool := flat_map (fun x => zfill 7 (bin x)) message.
Definition rsa_encrypt_string (e N : Z) (message : list Z) : list bool :=
  let mb := message_bits message in
  let chunksize := (bit_length N - 1)%nat in
  let chunks := map (fun i => rev (zfill chunksize (rev (slice mb chunksize i)))) (seq 0 (nchunks (length mb) chunksize)) in
  flat_map (fun ch => zfill (chunksize + 1) (bin (rsa_encrypt e N (int2 ch)))) chunks.

(** crypto_tools.py:211-216 [bitstring_to_string] *)
Definition bitstring_to_string (s : list bool) : list Z :=
  map (fun i => int2 (firstn 7 (skipn (7 * i) s))) (seq 0 (length s / 7)).

(** crypto_tools.py:187-208 [rsa_decrypt_string] with p = shors_alg(N) *)
Definition rsa_decrypt_string (e N : Z) (ciphertext : list bool) (p : Z) : option (list Z) :=
  match private_key e N p with
  | None => None
  | Some d =>
    let chunksize := bit_length N in
    let chunks := map (slice ciphertext chunksize) (seq 0 (nchunks (length ciphertext) chunksize)) in
    Some (bitstring_to_string (flat_map (fun ch => zfill (chunksize - 1) (bin (int2 ch ^ d mod N))) chunks))
  end.
