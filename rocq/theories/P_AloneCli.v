(** Proofs for C83: the command line tool. *)
From Verif Require Import Base BaseFacts M_Text M_Names M_Html M_Path M_Types M_Diag M_Ast M_Value M_State M_Native M_Eval M_Std M_Cli
  S_Diag S_Scope S_Lib S_Cli S_Alone P_Diag P_Lib P_Cli P_Alone.

Lemma alone_tool H O fuel before src es ds collected h ds' collected' h' : x_regex (h_X H []) std_regex <> None ->
  CompilationOf H O fuel before src es ds collected h -> Alone H O fuel before src ds' collected' h' ->
  ds = ds' /\ collected = collected' /\ h = h'.
Proof.
  intros RX (text & s0 & ex & s & RD & Ry & (new & u & N & U & Re) & C & Rp & Sl & ->) (new1 & text1 & ex1 & new' & N1 & RD1 & C1 & K & -> & ->).
  rewrite RD1 in RD. injection RD as ->. rewrite N1 in N. injection N as ->.
  assert (RX' : x_regex (cli_X H O []) std_regex <> None) by (unfold cli_X; destruct (o_allow_http O); exact RX).
  destruct (alone_text _ _ _ _ _ _ _ _ _ _ _ _ _ _ RX' N1 U Re C1 (fun k Hk => False_ind _ (K k Hk))) as (r & s' & C' & S). rewrite C' in C. injection C as <- <- <-.
  destruct S as [Sk So _ _ _ _ _ _ _]. rewrite So. split; [|split; reflexivity].
  assert (SI : SinkIs (reporting O) es (st_sink s')) by (eapply reported_fresh; [apply Ry|exact Rp]).
  destruct SI as (_ & V & _). rewrite <- Sk. eapply selected_fun; [exact Sl|exact V].
Qed.
Lemma alone_run H O fuel version status evs : o_stdin O = false -> x_regex (h_X H []) std_regex <> None ->
  main H O fuel version = Ret (status, evs) -> forall before src ds post ds' collected h, evs = before ++ Compiled src ds :: post ->
  Alone H O fuel before src ds' collected h -> ds = ds' /\ Compilation H O fuel before src ds collected h.
Proof.
  intros SI RX M before src ds post ds' collected h E A. destruct (compiled_fresh H O fuel version status evs SI RX M before src ds post E) as (c & h1 & es & C).
  destruct (alone_tool H O fuel before src es ds c h1 ds' collected h RX C A) as (-> & -> & ->). split; [reflexivity|]. now exists es.
Qed.
(** For the example *)
Lemma alone_if (c : res unit) (rd : option str) (f : str -> EM (html * nmap value)) ds h :
  match c, rd with
  | Ok tt new, Some text => match f text new with Ok (h, _) new' => Some (sk_v (st_sink new'), h, st_mods new') | _ => None end
  | _, _ => None
  end = Some (ds, h, []) ->
  exists new text exports new', c = Ok tt new /\ rd = Some text /\ f text new = Ok (h, exports) new' /\ (forall k, ~ Known new' k) /\ ds = sk_v (st_sink new').
Proof.
  destruct c as [[] new| | |]; try discriminate. destruct rd as [text|]; [|discriminate]. destruct (f text new) as [[h1 ex] new'| | |] eqn:E; try discriminate.
  intros [= <- <- M]. exists new, text, ex, new'. repeat split; auto. intros k K. unfold Known in K. rewrite M in K. discriminate K.
Qed.
