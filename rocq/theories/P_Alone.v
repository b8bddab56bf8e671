(** Proofs for C83: the standard library. *)
From Verif Require Import Base BaseFacts M_Text M_Names M_Html M_Path M_Types M_Diag M_Ast M_Value M_State M_Native M_Eval M_Std
  S_Types S_Scope S_Safe S_Session S_Lib S_Alone P_Std P_Lib P_Mono P_Session P_Shift2 P_Shift5 P_Shift6 P_Shift7.

Lemma new_fresh X fuel l o s : x_regex X std_regex <> None -> context_new X std_papyri fuel l o = Ok tt s -> Fresh l o s.
Proof.
  intros RX C. destruct (std_compiles X (fuel + 40) l o RX) as (s' & C' & F); [lia|].
  destruct (le_context X std_papyri fuel (fuel + 40) l o) as [L|L]; [lia| |]; rewrite L in C; [discriminate C|].
  rewrite C' in C. injection C as ->. exact F.
Qed.
Lemma new_starting X fuel l o s : x_regex X std_regex <> None -> context_new X std_papyri fuel l o = Ok tt s -> Starting s.
Proof.
  intros RX C. apply (context_starting _ _ _ _ _ _ C); [exact (new_fresh _ _ _ _ _ RX C)|].
  apply session_sound. exact (ses_new Lax X fuel l o s I RX I C).
Qed.
Lemma alone_text X0 fuel0 l o s0 s1 s X fuel path text h exports new' :
  x_regex X0 std_regex <> None -> context_new X0 std_papyri fuel0 l o = Ok tt s0 -> Used s0 s1 -> reset s1 = Ok tt s ->
  compile X fuel path text s0 = Ok (h, exports) new' -> (forall k, Known new' k -> ~ Known s k) ->
  exists r used', compile X fuel path text s = Ok (h, rm (rv r) exports) used' /\ SameUpToScopes r s0 new' s used'.
Proof.
  intros RX C U Re E D. pose proof (alone s0 s1 s (new_starting _ _ _ _ _ RX C) U Re (compile X fuel path text)
    (fun a b c d => eqv_compile a b c d X fuel path text)) as K. rewrite E in K. exact (K D).
Qed.
Lemma alone_file X0 fuel0 l o s0 s1 s X fuel path :
  x_regex X0 std_regex <> None -> context_new X0 std_papyri fuel0 l o = Ok tt s0 -> Used s0 s1 -> reset s1 = Ok tt s ->
  match load_uncached X (evals_n X fuel) path s0 with
  | Ok (h, exports) new' => (forall k, Known new' k -> ~ Known s k) ->
    exists r used', load_uncached X (evals_n X fuel) path s = Ok (h, rm (rv r) exports) used' /\ SameUpToScopes r s0 new' s used'
  | Err e new' => (forall k, Known new' k -> ~ Known s k) ->
    exists r used', load_uncached X (evals_n X fuel) path s = Err e used' /\ SameUpToScopes r s0 new' s used'
  | _ => True
  end.
Proof.
  intros RX C U Re. exact (alone s0 s1 s (new_starting _ _ _ _ _ RX C) U Re (load_uncached X (evals_n X fuel) path)
    (fun a b c d => eqv_load_file a b c d X fuel path)).
Qed.
Lemma known_keys A (m : nmap A) k : nhas m k = true -> In k (nkeys m).
Proof.
  unfold nhas. induction m as [|[x v] m IH]; [discriminate|]. cbn. destruct (str_eqb_spec k x) as [->|]; [now left|]. intro K. right. now apply IH.
Qed.
Lemma no_output X fuel l s s1 : context_new X std_papyri fuel l None = Ok tt s -> x_regex X std_regex <> None -> Used s s1 -> st_out s1 = None.
Proof.
  intros C RX U. pose proof (new_starting _ _ _ _ _ RX C) as S. destruct (new_fresh _ _ _ _ _ RX C) as (_ & _ & _ & _ & O).
  destruct (used_place _ _ (sg_place _ S) U) as (_ & _ & _ & _ & _ & P). destruct (st_out s); [contradiction|]. destruct (st_out s1); [contradiction|reflexivity].
Qed.
(** For the example *)
Lemma two_sources (c : res unit) (fa fb : EM (html * nmap value)) ka kb ln lb out cl :
  match c with
  | Ok tt new =>
    match fa new, fb new with
    | Ok _ before, Ok (h, [(_, VFunc (FClosure _ c _ _))]) new' =>
      Some (nkeys (st_mods before), nkeys (st_mods new'), length (st_heap new), length (st_heap before), h, c)
    | _, _ => None
    end
  | _ => None
  end = Some (ka, kb, ln, lb, out, cl) ->
  exists new va before n x s b new', c = Ok tt new /\ fa new = Ok va before /\ fb new = Ok (out, [(n, VFunc (FClosure x cl s b))]) new' /\
    nkeys (st_mods before) = ka /\ nkeys (st_mods new') = kb /\ length (st_heap new) = ln /\ length (st_heap before) = lb.
Proof.
  destruct c as [[] new| | |]; try discriminate. destruct (fa new) as [va before| | |] eqn:A; try discriminate.
  destruct (fb new) as [[h ex] new'| | |] eqn:B; try discriminate. destruct ex as [|[n v] [|]]; [discriminate| |destruct v as [| | | | | |[]|]; discriminate].
  destruct v as [| | | | | |[x k s b| |]|]; try discriminate. intros [= <- <- <- <- -> ->]. exists new, va, before, n, x, s, b, new'. repeat split; auto.
Qed.
Lemma used_two X fuel l new before va p :
  context_new X std_papyri fuel l None = Ok tt new -> x_regex X std_regex <> None -> load_uncached X (evals_n X fuel) p new = Ok va before ->
  Used new before /\ exists used, reset before = Ok tt used /\ st_heap used = st_heap before /\ st_mods used = st_mods before.
Proof.
  intros C RX A. assert (U : Used new before) by (eapply used_file; [apply used_not|rewrite A; reflexivity]).
  pose proof (no_output _ _ _ _ _ C RX U) as O. split; [exact U|].
  unfold reset, bind, modify, gets. cbn [set_uids set_sink st_out]. rewrite O. eexists. repeat split; reflexivity.
Qed.
Lemma distinct_known (s s' : st) a b : nkeys (st_mods s) = [a] -> nkeys (st_mods s') = [b] -> a <> b -> forall k, Known s' k -> ~ Known s k.
Proof. intros A B N k K K'. apply known_keys in K, K'. rewrite A in K'. rewrite B in K. destruct K as [<-|[]], K' as [K'|[]]. congruence. Qed.
