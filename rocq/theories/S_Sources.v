(** Specification for C80: directories on disk, and the source files in them. *)
From Verif Require Import Base M_Text M_Path S_Util M_Cli S_Cli.

(** A directory has named entries, in the order the system lists them, or it cannot be listed. A link leads to the path [to], if it leads anywhere. *)
Inductive tree := TFile | TDir (entries : list (str * tree)) | TLocked | TLink (to : option str).
(** [At t ns u]: following the names [ns] from [t] leads to [u]. *)
Inductive At : tree -> list str -> tree -> Prop :=
| at_here t : At t [] t
| at_entry l n t ns u : In (n, t) l -> At t ns u -> At (TDir l) (n :: ns) u.
(** Names are valid, and different in each directory. *)
Definition Proper (t : tree) : Prop :=
  forall ns l, At t ns (TDir l) -> NoDup (List.map fst l) /\ forall n u, In (n, u) l -> ValidName n.
Definition NoLinks (t : tree) : Prop := forall ns to, ~ At t ns (TLink to).

(** The path of an entry, from that of the directory *)
Definition below (dir : str) (ns : list str) : str := dir ++ flat_map (fun n => lit "/" ++ n) ns.
(** Absolute paths in their simplest form *)
Definition Canonical (p : str) : Prop := exists ns, ns <> [] /\ Forall ValidName ns /\ p = below [] ns.

(** What the walkdir crate (which does not follow links) gives for a directory at [p]: every entry, and an error for every directory that cannot be listed *)
Fixpoint walked (p : str) (t : tree) : list (str + str) :=
  inr p ::
  match t with
  | TDir l => flat_map (fun e => walked (p ++ lit "/" ++ fst e) (snd e)) l
  | TLocked => [inl p]
  | _ => []
  end.
(** What the system answers for the simplest form of the path of an entry: [base] is that of the directory itself. *)
Definition Resolving (canon : str -> option str) (dir base : str) (t : tree) : Prop :=
  canon dir = Some base /\ Canonical base /\
  forall ns u, At t ns u -> canon (below dir ns) = match u with TLink to => to | _ => Some (below base ns) end.
Definition LinksCanonical (t : tree) : Prop := forall ns to, At t ns (TLink (Some to)) -> Canonical to.

(** The entries of a directory, by their place in it: an entry that is a link has the place it leads to, if that is in the directory. *)
Inductive Place (base : str) (t : tree) : list str -> Prop :=
| place_entry ns u : At t ns u -> (forall to, u <> TLink to) -> Place base t ns
| place_link ns to : At t ns (TLink (Some (below base to))) -> Forall ValidName to -> Place base t to.
(** The last name is that of a source file. *)
Definition SourceEntry (ns : list str) : Prop := exists before n stem, ns = before ++ [n] /\ PapyriName n stem.
(** Names with slashes between them *)
Fixpoint slashed (ns : list str) : str := match ns with [] => [] | [n] => n | n :: ns => n ++ lit "/" ++ slashed ns end.
