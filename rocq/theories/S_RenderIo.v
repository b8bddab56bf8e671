(** Specification for C78: writers and files that may fail, and UTF-8. *)
From Verif Require Import Base.

(** A text as UTF-8, as defined in RFC 3629: the character number is spread over the bits marked x.
    0xxxxxxx, 110xxxxx 10xxxxxx, 1110xxxx 10xxxxxx 10xxxxxx, 11110xxx 10xxxxxx 10xxxxxx 10xxxxxx; the shortest form is used. *)
Definition Tail (b : N) (x : N) : Prop := (b = 128 + x /\ x < 64)%N.
Inductive Utf8 : list N -> str -> Prop :=
| u_nil : Utf8 [] []
| u_one c bs s : (c < 128)%N -> Utf8 bs s -> Utf8 (c :: bs) (c :: s)
| u_two x y b c bs s : (x < 32)%N -> Tail b y -> (c = x * 64 + y)%N -> (128 <= c)%N -> Utf8 bs s -> Utf8 (192 + x :: b :: bs)%N (c :: s)
| u_three x y z b b' c bs s : (x < 16)%N -> Tail b y -> Tail b' z -> (c = x * 4096 + y * 64 + z)%N -> (2048 <= c)%N -> Utf8 bs s ->
    Utf8 (224 + x :: b :: b' :: bs)%N (c :: s)
| u_four x y z u b b' b'' c bs s : (x < 8)%N -> Tail b y -> Tail b' z -> Tail b'' u -> (c = x * 262144 + y * 4096 + z * 64 + u)%N -> (65536 <= c)%N -> Utf8 bs s ->
    Utf8 (240 + x :: b :: b' :: b'' :: bs)%N (c :: s).

(** A writer, where [put w b] is the attempt to write [b]: the writer afterwards and whether it succeeded. Of a failed attempt any
    part from the beginning may have been written; [contents] is all that was written so far. *)
Definition Writer {W} (put : W -> list N -> W * bool) (contents : W -> list N) : Prop :=
  forall w b w' ok, put w b = (w', ok) ->
  exists p q, b = p ++ q /\ contents w' = contents w ++ p /\ (ok = true -> q = []).
(** A file, where the attempt also tells how many bytes were written. *)
Definition File {F} (put : F -> list N -> F * nat * bool) (contents : F -> list N) : Prop :=
  forall f b f' n ok, put f b = (f', n, ok) -> contents f' = contents f ++ firstn n b /\ (ok = true -> length b <= n).
