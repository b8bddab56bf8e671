(** Weaker checks on syntax trees are passed whenever stronger ones are. *)
From Verif Require Import Base M_Names M_Types M_Ast S_Safe.

Definition forallb_mono {A} (f g : A -> bool) (H : forall x, f x = true -> g x = true) : forall l, forallb f l = true -> forallb g l = true :=
  fix go l := match l return forallb f l = true -> forallb g l = true with
  | [] => fun _ => eq_refl
  | x :: l => fun E => let '(conj E1 E2) := proj1 (andb_true_iff _ _) E in proj2 (andb_true_iff _ _) (conj (H x E1) (go l E2))
  end.
Lemma andb_mono a b c d : (a = true -> c = true) -> (b = true -> d = true) -> a && b = true -> c && d = true.
Proof. rewrite !andb_true_iff. tauto. Qed.
Definition option_mono {A} (f g : A -> bool) (H : forall x, f x = true -> g x = true) (o : option A) :
  match o with Some x => f x | None => true end = true -> match o with Some x => g x | None => true end = true :=
  match o with Some x => H x | None => fun E => E end.

Section Weaken.
  Variables C D : checks.
  Hypothesis w_call : forall f, c_call C f = true -> c_call D f = true.
  Hypothesis w_sig : forall s, c_sig C s = true -> c_sig D s = true.
  Hypothesis w_let : forall b n e, c_let C b n e = true -> c_let D b n e = true.
  Hypothesis w_name : forall n, c_name C n = true -> c_name D n = true.
  Hypothesis w_pattern : forall p, c_pattern C p = true -> c_pattern D p = true.
  Hypothesis w_written : forall n, c_written C n = true -> c_written D n = true.

  Fixpoint weaken_expr (e : expr) {struct e} : every_expr C e = true -> every_expr D e = true
  with weaken_arg (a : arg) {struct a} : every_arg C a = true -> every_arg D a = true
  with weaken_def (d : func_def) {struct d} : every_def C d = true -> every_def D d = true
  with weaken_sig (s : signature) {struct s} : every_sig C s = true -> every_sig D s = true
  with weaken_param (p : param) {struct p} : every_param C p = true -> every_param D p = true
  with weaken_let (l : let_in) {struct l} : every_let C l = true -> every_let D l = true
  with weaken_attr (a : tag_attr) {struct a} : every_attr C a = true -> every_attr D a = true
  with weaken_pattern (p : pattern) {struct p} : every_pattern C p = true -> every_pattern D p = true
  with weaken_node (n : node) {struct n} : every_node C n = true -> every_node D n = true
  with weaken_export (e : M_Ast.export) {struct e} : every_export C e = true -> every_export D e = true.
  Proof.
    - destruct e as [ |b|i|s|s|src f args content|d|l|v bs|ns|l|ps|n attrs ns|n]; cbn [every_expr]; try (intro H; exact H).
      + refine (andb_mono _ _ _ _ (andb_mono _ _ _ _ (w_call f) (forallb_mono _ _ weaken_arg args)) (weaken_expr content)).
      + exact (weaken_def d).
      + exact (weaken_let l).
      + refine (andb_mono _ _ _ _ (weaken_expr v) (forallb_mono _ _ (fun b => andb_mono _ _ _ _ (weaken_pattern (fst b)) (weaken_expr (snd b))) bs)).
      + exact (forallb_mono _ _ weaken_node ns).
      + exact (forallb_mono _ _ (fun x => weaken_expr (fst x)) l).
      + refine (andb_mono _ _ _ _ (andb_mono _ _ _ _ _ (forallb_mono _ _ weaken_attr attrs)) (forallb_mono _ _ weaken_node ns)).
        destruct n; [apply w_written|exact (fun H => H)].
    - destruct a as [n k e]. cbn [every_arg]. refine (andb_mono _ _ _ _ _ (weaken_expr e)). rewrite !orb_true_iff. intros [H|H]; [now left|right; now apply w_written].
    - destruct d as [n s e]. exact (andb_mono _ _ _ _ (weaken_sig s) (weaken_expr e)).
    - destruct s as [ps a b c d e]. exact (andb_mono _ _ _ _ (w_sig _) (forallb_mono _ _ weaken_param ps)).
    - destruct p as [n q i t [e|]]; [exact (weaken_expr e)|exact (fun H => H)].
    - destruct l as [i vars e]. exact (andb_mono _ _ _ _ (forallb_mono _ _ (fun ne => andb_mono _ _ _ _ (w_let i (fst ne) (snd ne)) (weaken_expr (snd ne))) vars) (weaken_expr e)).
    - destruct a as [n k [e|]|e].
      + exact (andb_mono _ _ _ _ (w_written n) (weaken_expr e)).
      + exact (andb_mono _ _ _ _ (w_written n) (fun H => H)).
      + exact (weaken_expr e).
    - destruct p; cbn [every_pattern]; refine (andb_mono _ _ _ _ (w_pattern _) _); try exact (fun H => H).
      all: try apply w_name.
      all: try exact (weaken_expr _).
      all: try exact (forallb_mono _ _ weaken_pattern _).
      all: try exact (forallb_mono _ _ w_name _).
      all: try exact (andb_mono _ _ _ _ (weaken_pattern _) (weaken_pattern _)).
      all: try exact (andb_mono _ _ _ _ (andb_mono _ _ _ _ (weaken_pattern _) (weaken_pattern _)) (weaken_pattern _)).
      all: try exact (andb_mono _ _ _ _ (andb_mono _ _ _ _ (weaken_pattern _) (weaken_pattern _)) (forallb_mono _ _ w_name _)).
      exact (andb_mono _ _ _ _ (forallb_mono _ _ (fun kp => weaken_pattern (snd kp)) _) (option_mono _ _ weaken_pattern _)).
    - destruct n as [e|e|d|src t b|t|c| |]; cbn [every_node]; try exact (fun H => H).
      + exact (weaken_export e).
      + exact (weaken_expr e).
      + refine (andb_mono _ _ _ _ _ (weaken_def d)). destruct d as [n s e]. exact (w_name n).
    - destruct e as [vars|l|d]; cbn [every_export].
      + exact (forallb_mono _ _ (fun ne => andb_mono _ _ _ _ (andb_mono _ _ _ _ (w_name (fst ne)) (w_written (fst ne))) (weaken_expr (snd ne))) vars).
      + refine (andb_mono _ _ _ _ _ (weaken_let l)). destruct l as [i vars e].
        exact (forallb_mono _ _ (fun ne : str * expr => andb_mono _ _ _ _ (w_name (fst ne)) (w_written (fst ne))) vars).
      + refine (andb_mono _ _ _ _ _ (weaken_def d)). destruct d as [n s e]. exact (andb_mono _ _ _ _ (w_name n) (w_written n)).
  Qed.
End Weaken.
