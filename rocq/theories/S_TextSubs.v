(** Specification of typographic substitution, independent of the model. *)
From Verif Require Import Base.

(** The documented sequences: minus signs before a digit, dashes, arrows, comparisons, and so on. *)
Inductive Documented : str -> str -> Prop :=
| D_minus : forall d, (48 <= d <= 57)%N -> Documented [45%N; d] [8722%N; d]
| D_em : Documented (lit "---") [8212%N]
| D_en : Documented (lit "--") [8211%N]
| D_both : Documented (lit "<->") [8596%N]
| D_left : Documented (lit "<-") [8592%N]
| D_right : Documented (lit "->") [8594%N]
| D_ne : Documented (lit "!=") [8800%N]
| D_le : Documented (lit "<=") [8804%N]
| D_ge : Documented (lit ">=") [8805%N]
| D_pm : Documented (lit "+/-") [177%N]
| D_copy : Documented (lit "(c)") [169%N]
| D_nbsp : Documented (lit "~") [160%N].

Definition StartsWith (p s : str) := exists rest, s = p ++ rest.
Definition Contains (p s : str) := exists before, exists after, s = before ++ p ++ after.

(** Reading from the left: where a documented sequence starts, the longest one is replaced and reading goes on behind
    it; any other character is copied. *)
Inductive Substituted : str -> str -> Prop :=
| Sub_end : Substituted [] []
| Sub_replace : forall p r rest out,
    Documented p r ->
    (forall p' r', Documented p' r' -> StartsWith p' (p ++ rest) -> length p' <= length p) ->
    Substituted rest out -> Substituted (p ++ rest) (r ++ out)
| Sub_copy : forall c rest out,
    (forall p r, Documented p r -> ~ StartsWith p (c :: rest)) ->
    Substituted rest out -> Substituted (c :: rest) (c :: out).
