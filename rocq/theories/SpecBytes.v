(** Specification: strings as Rust stores them, in UTF-8, and what byte offsets in them mean. Independent of
    the byte operations of Base.v. *)
From Verif Require Export SpecParse.

(** The encoding of one char: RFC 3629, section 3 ([char::encode_utf8]). *)
Definition utf8 (c : char) : list N :=
  if c <=? 127 then [c]
  else if c <=? 2047 then [192 + c / 64; 128 + c mod 64]
  else if c <=? 65535 then [224 + c / 4096; 128 + c / 64 mod 64; 128 + c mod 64]
  else [240 + c / 262144; 128 + c / 4096 mod 64; 128 + c / 64 mod 64; 128 + c mod 64].
(** [str::as_bytes]. *)
Definition bytes (s : str) : list N := flat_map utf8 s.

Definition continuation (b : N) : Prop := 128 <= b < 192.
(** [str::is_char_boundary]: the ends, and every byte that does not continue a char. *)
Definition boundary (l : list N) (n : N) : Prop :=
  n = N.of_nat (List.length l) \/
  exists b, nth_error l (N.to_nat n) = Some b /\ ~ continuation b.
(** The bytes from offset [o] on, [n] of them. *)
Definition slice (l : list N) (o n : N) : list N := firstn (N.to_nat n) (skipn (N.to_nat o) l).
(** What a span says of the bytes of the whole input: where its text is, and on which line (one more than the
    newlines before). *)
Definition span_in_bytes (s : str) (i : span) : Prop :=
  slice (bytes s) (off i) (N.of_nat (List.length (bytes (frag i)))) = bytes (frag i) /\
  off i + N.of_nat (List.length (bytes (frag i))) <= N.of_nat (List.length (bytes s)) /\
  boundary (bytes s) (off i) /\ boundary (bytes s) (off i + N.of_nat (List.length (bytes (frag i)))) /\
  line i = 1 + N.of_nat (count_occ N.eq_dec (firstn (N.to_nat (off i)) (bytes s)) 10).
