(** Property theorems C80: the source files of a directory. *)
From Verif Require Import Base M_Names M_Text M_Path S_Util M_Cli S_Cli M_Diag M_Value M_State M_Tokenizer M_Native S_Sources P_Sources S_Example.

(** C80. All entries of a directory, in it or below it, whose names are those of source files are found, in order, each once if there
    are no links; nothing else is found. Directories that cannot be listed and links that lead nowhere are reported. (A link counts
    as what it leads to, if that is in the directory, see [Place]. It is partial, as entries that are not files are found too.) *)
Theorem C80_found_partial : forall canon dir base t, Resolving canon dir base t -> LinksCanonical t -> Proper t ->
  exists errs l, find_sources canon (walked dir t) dir = (errs, Some l) /\
    (forall p, In p l <-> exists ns, Place base t ns /\ SourceEntry ns /\ p = slashed ns) /\
    (NoLinks t -> Increasing l) /\
    (forall p, In p errs <-> exists ns, p = below dir ns /\ (At t ns TLocked \/ At t ns (TLink None))).
Proof. exact sources_found. Qed.
Print Assumptions C80_found_partial.

(** A directory with the name of a source file is taken for one. *)
Theorem C80_directory_refuted : exists canon dir base t l entries, Resolving canon dir base t /\ Proper t /\
  find_sources canon (walked dir t) dir = ([], Some l) /\ In (lit "a.papyri") l /\ At t [lit "a.papyri"] (TDir entries).
Proof.
  exists (fun p => Some (lit "/home/" ++ p)), (lit "site"), (lit "/home/site"), (TDir [(lit "a.papyri", TDir [])]). eexists _, []. split; [|split; [|split; [vm_compute; reflexivity|split; [now left|]]]].
  - split; [reflexivity|]. split.
    { exists [lit "home"; lit "site"]. split; [discriminate|]. split; [|reflexivity]. constructor; [|constructor; [|constructor]]; (split; [discriminate|]; split; [cbn; intuition discriminate|split; discriminate]). }
    intros ns u A. inversion A as [|? n t ns' ? I A']; subst; [reflexivity|]. destruct I as [[= <- <-]|[]]. inversion A' as [|? ? ? ? ? I _]; subst; [reflexivity|destruct I].
  - intros ns l A. inversion A as [|? n t ns' ? I A']; subst.
    + split; [repeat constructor; now intros []|]. intros n u [[= <- <-]|[]]. split; [discriminate|]; split; [cbn; intuition discriminate|split; discriminate].
    + destruct I as [[= <- <-]|[]]. inversion A' as [|? ? ? ? ? I _]; subst; [split; [constructor|intros ? ? []]|destruct I].
  - econstructor; [now left|constructor].
Qed.
Print Assumptions C80_directory_refuted.

(** With a link to another source file of the directory, that file is found twice; with a link to one elsewhere, nothing is found
    and nothing is reported. *)
Theorem C80_links_refuted : exists canon dir base t, Resolving canon dir base t /\ LinksCanonical t /\ Proper t /\
  (At t [lit "a.papyri"] TFile /\ At t [lit "b.papyri"] (TLink (Some (base ++ lit "/a.papyri"))) /\ At t [lit "c.papyri"] (TLink (Some (lit "/shared/c.papyri")))) /\
  find_sources canon (walked dir t) dir = ([], Some [lit "a.papyri"; lit "a.papyri"]).
Proof.
  set (t := TDir [(lit "a.papyri", TFile); (lit "b.papyri", TLink (Some (lit "/home/site/a.papyri"))); (lit "c.papyri", TLink (Some (lit "/shared/c.papyri")))]).
  exists (fun p => if str_eqb p (lit "site/b.papyri") then Some (lit "/home/site/a.papyri") else if str_eqb p (lit "site/c.papyri") then Some (lit "/shared/c.papyri") else Some (lit "/home/" ++ p)),
    (lit "site"), (lit "/home/site"), t.
  assert (A : forall ns u, At t ns u -> (ns, u) = ([], t) \/ (ns, u) = ([lit "a.papyri"], TFile) \/
    (ns, u) = ([lit "b.papyri"], TLink (Some (lit "/home/site/a.papyri"))) \/ (ns, u) = ([lit "c.papyri"], TLink (Some (lit "/shared/c.papyri")))).
  { intros ns u A. inversion A as [|? n t' ns' ? I A']; subst; [now left|]. destruct I as [[= <- <-]|[[= <- <-]|[[= <- <-]|[]]]]; inversion A'; subst; auto. }
  assert (V : forall n, In n [lit "home"; lit "site"; lit "shared"; lit "a.papyri"; lit "b.papyri"; lit "c.papyri"] -> ValidName n).
  { intros n I. repeat (destruct I as [<-|I]; [split; [discriminate|]; split; [cbn; intuition discriminate|split; discriminate]|]). destruct I. }
  split; [|split; [|split; [|split; [|vm_compute; reflexivity]]]].
  - split; [reflexivity|]. split; [exists [lit "home"; lit "site"]; split; [discriminate|]; split; [apply Forall_forall; intros n I; apply V; cbn in I |- *; intuition|reflexivity]|].
    intros ns u H. destruct (A ns u H) as [[= -> ->]|[[= -> ->]|[[= -> ->]|[= -> ->]]]]; reflexivity.
  - intros ns to H. destruct (A _ _ H) as [[=]|[[=]|[[= -> ->]|[= -> ->]]]].
    + exists [lit "home"; lit "site"; lit "a.papyri"]. split; [discriminate|]; split; [apply Forall_forall; intros n I; apply V; cbn in I |- *; intuition|reflexivity].
    + exists [lit "shared"; lit "c.papyri"]. split; [discriminate|]; split; [apply Forall_forall; intros n I; apply V; cbn in I |- *; intuition|reflexivity].
  - intros ns l H. destruct (A _ _ H) as [[= -> ->]|[[=]|[[=]|[=]]]]. split; [repeat constructor; cbn; intuition discriminate|].
    intros n u I. apply V. destruct I as [[= <- <-]|[[= <- <-]|[[= <- <-]|[]]]]; cbn; auto 8.
  - repeat split; (econstructor; [|constructor]); cbn; auto.
Qed.
Print Assumptions C80_links_refuted.

(** For a program, listing a directory without links gives just the source files in it, below the path asked for and without the
    suffix, if that is in small letters everywhere. *)
Theorem C80_list_partial : forall X call load bs src s p canon base t, let d := resolve_relative_path src p false in
  ngetm bs (lit "path") = Some (VStr p) ->
  x_list_dir X d = match find_sources canon (walked d t) d with (errs, Some l) => Some (errs, l) | (_, None) => None end ->
  Resolving canon d base t -> Proper t -> NoLinks t ->
  (forall ns u, At t ns u -> SourceEntry ns -> exists before stem, ns = before ++ [stem ++ lit ".papyri"]) ->
  exists out errs dir slashes, evaluate_native_func X call load FileList bs src s =
      Ok (VList (List.map VStr out)) (set_sink (fold_left (fun k q => sink_add (ModuleErr (IOError q)) k) errs (st_sink s)) s) /\
    (forall q, In q errs <-> exists ns, q = below d ns /\ At t ns TLocked) /\
    p = dir ++ slashes /\ Forall (eq (c_of "/"%string)) slashes /\ (forall q, dir <> q ++ lit "/") /\
    forall o, In o out <-> exists before stem u, At t (before ++ [stem ++ lit ".papyri"]) u /\ stem <> [] /\ o = dir ++ lit "/" ++ slashed (before ++ [stem]).
Proof. exact sources_listed. Qed.
Print Assumptions C80_list_partial.

Definition C80_tree : tree := TDir [(lit "z.papyri", TFile); (lit "sub", TDir [(lit "x.txt", TFile); (lit "a.papyri", TFile)]); (lit "secret", TLocked); (lit ".papyri", TFile)].
Example C80_nonvacuous : Resolving (fun p => Some (lit "/home/" ++ p)) (lit "site") (lit "/home/site") C80_tree /\ Proper C80_tree /\ NoLinks C80_tree /\
  find_sources (fun p => Some (lit "/home/" ++ p)) (walked (lit "site") C80_tree) (lit "site") = ([lit "site/secret"], Some [lit "sub/a.papyri"; lit "z.papyri"]).
Proof.
  assert (A : forall ns u, At C80_tree ns u -> In (ns, u) (places C80_tree)) by (intros ns u; apply in_places).
  assert (V : forall n, In n [lit "home"; lit "site"; lit "z.papyri"; lit "sub"; lit "x.txt"; lit "a.papyri"; lit "secret"; lit ".papyri"] -> ValidName n).
  { intros n I. repeat (destruct I as [<-|I]; [split; [discriminate|]; split; [cbn; intuition discriminate|split; discriminate]|]). destruct I. }
  split; [|split; [|split; [|vm_compute; reflexivity]]].
  - split; [reflexivity|]. split; [exists [lit "home"; lit "site"]; split; [discriminate|]; split; [apply Forall_forall; intros n I; apply V; cbn in I |- *; intuition|reflexivity]|].
    intros ns u H. apply A in H. repeat (destruct H as [[= <- <-]|H]; [reflexivity|]). destruct H.
  - intros ns l H. apply A in H. repeat (destruct H as [H|H]; [try discriminate H; injection H as <- <-;
      (split; [repeat constructor; cbn; intuition discriminate|intros n u I; apply V; cbn in I; repeat (destruct I as [[= <- <-]|I]; [cbn; auto 12|]); destruct I])|]). destruct H.
  - intros ns to H. apply A in H. repeat (destruct H as [H|H]; [discriminate H|]). destruct H.
Qed.
