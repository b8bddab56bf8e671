(** Proofs for C78. *)
From Coq Require Import Lia ZifyN.
From Verif Require Import Base BaseFacts M_Text M_Names M_TagInfo M_Html M_Render P_Html M_RenderIo S_RenderIo.
Ltac Zify.zify_post_hook ::= Z.div_mod_to_equations.

Lemma utf8_spec c bs s : (c < 2097152)%N -> Utf8 bs s -> Utf8 (utf8 c ++ bs) (c :: s).
Proof.
  intros Hc H. unfold utf8. destruct (N.ltb_spec c 128); [now apply u_one|].
  destruct (N.ltb_spec c 2048); [apply (u_two (c / 64) (c mod 64)); unfold Tail; auto; lia|].
  destruct (N.ltb_spec c 65536); [apply (u_three (c / 4096) (c / 64 mod 64) (c mod 64)); unfold Tail; auto; lia|].
  apply (u_four (c / 262144) (c / 4096 mod 64) (c / 64 mod 64) (c mod 64)); unfold Tail; auto; lia.
Qed.
Lemma bytes_utf8 s : Forall (fun c => (c < 1114112)%N) s -> Utf8 (bytes s) s.
Proof. induction 1 as [|c s Hc _ IH]; [constructor|]. unfold bytes in *. cbn [flat_map]. apply utf8_spec; [lia|exact IH]. Qed.
Lemma bytes_app s t : bytes (s ++ t) = bytes s ++ bytes t.
Proof. apply flat_map_app. Qed.

Section Writes.
  Variables (W : Type) (put : W -> list N -> W * bool) (contents : W -> list N) (Inv : W -> Prop).
  Hypothesis Hput : forall w b w' ok, Inv w -> put w b = (w', ok) ->
    Inv w' /\ exists p q, b = p ++ q /\ contents w' = contents w ++ p /\ (ok = true -> q = []).
  Definition Sends (m : Io W) (b : list N) : Prop := forall w w' ok, Inv w -> m w = (w', ok) ->
    Inv w' /\ (exists p q, b = p ++ q /\ contents w' = contents w ++ p /\ (ok = true -> q = [])) /\
    (ok = false -> exists w0 b0, put w0 b0 = (w', false)).
  Lemma sends_done : Sends done [].
  Proof. intros w w' ok I [= <- <-]. split; [exact I|]. split; [|discriminate]. exists [], []. split; [reflexivity|]. split; [now rewrite app_nil_r|reflexivity]. Qed.
  Lemma sends_next a b x y : Sends a x -> Sends b y -> Sends (next a b) (x ++ y).
  Proof.
    intros Ha Hb w w' ok I. unfold next. destruct (a w) as [w1 o1] eqn:Ea.
    destruct (Ha w w1 o1 I Ea) as (I1 & (p & q & -> & E1 & Hq) & Hf). destruct o1.
    - rewrite Hq by reflexivity. intro Eb. destruct (Hb w1 w' ok I1 Eb) as (I2 & (p2 & q2 & -> & E2 & Hq2) & Hf2). split; [exact I2|]. split; [|exact Hf2].
      exists (p ++ p2), q2. rewrite E2, E1, app_nil_r, <- !app_assoc. auto.
    - intros [= <- <-]. split; [exact I1|]. split; [|intros _; apply Hf; reflexivity]. exists p, (q ++ y). rewrite app_assoc. split; [reflexivity|]. split; [exact E1|discriminate].
  Qed.
  Lemma sends_write ps : Sends (write put ps) (bytes (List.concat ps)).
  Proof.
    induction ps as [|p ps IH]; [exact sends_done|]. cbn [write List.concat]. rewrite bytes_app. apply sends_next; [|exact IH].
    intros w w' ok I E. destruct (Hput _ _ _ _ I E) as (I' & H). split; [exact I'|]. split; [exact H|]. intros ->. eauto.
  Qed.
  Lemma sends_as m b b' : Sends m b -> b = b' -> Sends m b'.
  Proof. now intros H <-. Qed.
  Lemma sends_each A (f : A -> Io W) (g : A -> str) l : (forall x, Sends (f x) (bytes (g x))) -> Sends (for_each f l) (bytes (flat_map g l)).
  Proof.
    intro H. induction l as [|x l IH]; [exact sends_done|]. cbn [for_each flat_map]. rewrite bytes_app. now apply sends_next.
  Qed.
  Lemma sends_attr kv : Sends (write_attr put kv) (bytes (render_attr kv)).
  Proof.
    destruct kv as [k v]. unfold write_attr, render_attr. cbn [fst snd]. rewrite app_assoc, bytes_app. apply sends_next.
    - eapply sends_as; [apply sends_write|]. cbn [List.concat]. now rewrite app_nil_r.
    - destruct v as [v|]; [|exact sends_done]. eapply sends_as; [apply sends_write|]. cbn [List.concat]. now rewrite app_nil_r.
  Qed.
  Lemma sends_html as_html h : Sends (write_html put as_html h) (bytes (render as_html h)).
  Proof.
    assert (S1 : forall s, Sends (write put [s]) (bytes s)).
    { intro s. eapply sends_as; [apply sends_write|]. cbn [List.concat]. now rewrite app_nil_r. }
    induction h as [|n a c IH|l IH|s| |] using html_ind'; cbn [write_html render].
    - exact sends_done.
    - rewrite !bytes_app. apply sends_next; [|apply sends_next; [exact IH|]].
      + destruct as_html; [|exact sends_done]. rewrite app_assoc, bytes_app. apply sends_next.
        * eapply sends_as; [apply sends_write|]. cbn [List.concat]. now rewrite app_nil_r.
        * rewrite bytes_app. apply sends_next; [apply sends_each; intro; apply sends_attr|apply S1].
      + destruct as_html; cbn [negb].
        * destruct (is_self_closing n); cbn [negb]; [destruct (str_eqb n n_doctype); [apply S1|exact sends_done]|].
          eapply sends_as; [apply sends_write|]. cbn [List.concat]. now rewrite app_nil_r.
        * destruct (str_eqb n n_p); [apply S1|]. destruct (str_eqb n n_hr); [apply S1|]. destruct (is_block_name n); [apply S1|exact sends_done].
    - induction IH as [|x l Hx _ IHl]; [exact sends_done|]. cbn [flat_map]. rewrite bytes_app. apply sends_next; assumption.
    - destruct as_html; apply S1.
    - apply S1.
    - apply S1.
  Qed.
End Writes.

Section Succeeds.
  Variables (W : Type) (put : W -> list N -> W * bool).
  Hypothesis Hok : forall w b, snd (put w b) = true.
  Definition Succ (m : Io W) : Prop := forall w, snd (m w) = true.
  Lemma succ_next a b : Succ a -> Succ b -> Succ (next a b).
  Proof. intros Ha Hb w. unfold next. specialize (Ha w). destruct (a w) as [w1 o]. cbn in Ha. subst o. apply Hb. Qed.
  Lemma succ_done : Succ done. Proof. intro w. reflexivity. Qed.
  Lemma succ_write ps : Succ (write put ps).
  Proof. induction ps as [|p ps IH]; [exact succ_done|]. cbn [write]. apply succ_next; [intro w; apply Hok|exact IH]. Qed.
  Lemma succ_each A (f : A -> Io W) l : (forall x, Succ (f x)) -> Succ (for_each f l).
  Proof. intro H. induction l as [|x l IH]; [exact succ_done|]. cbn [for_each]. now apply succ_next. Qed.
  Lemma succ_html as_html h : Succ (write_html put as_html h).
  Proof.
    induction h as [|n a c IH|l IH|s| |] using html_ind'; cbn [write_html]; try (exact succ_done || apply succ_write).
    - apply succ_next; [|apply succ_next; [exact IH|]].
      + destruct as_html; [|exact succ_done]. apply succ_next; [apply succ_write|]. apply succ_next; [|apply succ_write]. apply succ_each. intros [k v]. unfold write_attr. cbn [fst snd].
        apply succ_next; [apply succ_write|]. destruct v; [apply succ_write|exact succ_done].
      + repeat match goal with |- context[if ?b then _ else _] => destruct b end; try apply succ_write; exact succ_done.
    - induction IH as [|x l Hx _ IHl]; [exact succ_done|]. now apply succ_next.
    - destruct as_html; apply succ_write.
  Qed.
End Succeeds.

Section Buffer.
  Variables (F : Type) (file_put : F -> list N -> F * nat * bool) (contents : F -> list N).
  Hypothesis Hfile : File file_put contents.
  Notation buffered := (buffered F).
  Definition logical (w : buffered) : list N := contents (b_file F w) ++ b_buf F w.
  Definition Fits (w : buffered) : Prop := length (b_buf F w) <= capacity.

  Lemma flush_spec w w' ok : flush_buf F file_put w = (w', ok) ->
    logical w' = logical w /\ length (b_buf F w') <= length (b_buf F w) /\ (ok = true -> b_buf F w' = []).
  Proof.
    unfold flush_buf, logical. destruct w as [f buf]; cbn [b_buf b_file]. destruct buf as [|x buf]; [intros [= <- <-]; auto|].
    remember (x :: buf) as b. destruct (file_put f b) as [[f' n] o] eqn:E. intros [= <- <-]. cbn [b_buf b_file].
    destruct (Hfile _ _ _ _ _ E) as (E1 & E2). rewrite E1. destruct o.
    - rewrite firstn_all2 by auto. rewrite app_nil_r. cbn [length]. split; [reflexivity|]. split; [lia|auto].
    - rewrite <- app_assoc, firstn_skipn, skipn_length. split; [reflexivity|]. split; [lia|discriminate].
  Qed.
  Lemma buffer_spec w b w' ok : Fits w -> buffer_put F file_put w b = (w', ok) ->
    Fits w' /\ exists p q, b = p ++ q /\ logical w' = logical w ++ p /\ (ok = true -> q = []).
  Proof.
    intros HF. unfold buffer_put.
    assert (Append : forall v, Fits v -> length b <= capacity - length (b_buf F v) ->
      Fits (Buffered F (b_file F v) (b_buf F v ++ b)) /\ logical (Buffered F (b_file F v) (b_buf F v ++ b)) = logical v ++ b).
    { intros v Hv Hl. unfold Fits, logical in *. cbn [b_buf b_file]. rewrite app_length, app_assoc. split; [lia|reflexivity]. }
    destruct (Nat.ltb_spec (length b) (capacity - length (b_buf F w))) as [Hl|Hl].
    - intros [= <- <-]. destruct (Append w HF) as (A1 & A2); [lia|]. split; [exact A1|]. exists b, []. rewrite app_nil_r. auto.
    - destruct (Nat.ltb_spec (capacity - length (b_buf F w)) (length b)) as [Hl2|Hl2].
      + destruct (flush_buf F file_put w) as [w1 o] eqn:E. destruct (flush_spec _ _ _ E) as (L1 & L2 & L3).
        assert (HF1 : Fits w1) by (unfold Fits in *; lia). destruct o.
        * specialize (L3 eq_refl). destruct (Nat.leb_spec capacity (length b)) as [Hc|Hc].
          -- destruct (file_put (b_file F w1) b) as [[f n] o] eqn:E2. intros [= <- <-]. destruct (Hfile _ _ _ _ _ E2) as (E3 & E4).
             split; [unfold Fits in *; cbn [b_buf]; lia|]. exists (firstn n b), (skipn n b). rewrite firstn_skipn. split; [reflexivity|].
             split; [unfold logical in *; cbn [b_file b_buf]; rewrite L3, app_nil_r in *; rewrite E3, L1; reflexivity|].
             intros ->. apply skipn_all2. auto.
          -- intros [= <- <-]. destruct (Append w1 HF1) as (A1 & A2); [rewrite L3; cbn [length]; lia|]. split; [exact A1|]. exists b, [].
             rewrite app_nil_r, A2, L1. auto.
        * intros [= <- <-]. split; [exact HF1|]. exists [], b. rewrite app_nil_r. split; [reflexivity|]. split; [exact L1|discriminate].
      + destruct (Nat.leb_spec capacity (length b)) as [Hc|Hc].
        * destruct (file_put (b_file F w) b) as [[f n] o] eqn:E2. intros [= <- <-]. destruct (Hfile _ _ _ _ _ E2) as (E3 & E4).
          assert (Hb : b_buf F w = []) by (apply length_zero_iff_nil; unfold Fits in HF; lia).
          split; [exact HF|]. exists (firstn n b), (skipn n b). rewrite firstn_skipn. split; [reflexivity|].
          split; [unfold logical; cbn [b_file b_buf]; rewrite Hb, !app_nil_r; exact E3|]. intros ->. apply skipn_all2. auto.
        * intros [= <- <-]. destruct (Append w HF) as (A1 & A2); [lia|]. split; [exact A1|]. exists b, []. rewrite app_nil_r. auto.
  Qed.

  Definition Extends (f f' : F) : Prop := exists d, contents f' = contents f ++ d.
  Lemma extends_put f g b g' n ok : Extends f g -> file_put g b = (g', n, ok) -> Extends f g'.
  Proof. intros (d & E) E1. destruct (Hfile _ _ _ _ _ E1) as (E2 & _). exists (d ++ firstn n b). now rewrite E2, E, <- app_assoc. Qed.
  Lemma extends_flush f w w' ok : Extends f (b_file F w) -> flush_buf F file_put w = (w', ok) -> Extends f (b_file F w').
  Proof.
    intro H. unfold flush_buf. destruct (b_buf F w) as [|x l]; [intros [= <- <-]; exact H|].
    destruct (file_put (b_file F w) (x :: l)) as [[f' n] o] eqn:E. intros [= <- <-]. cbn [b_file]. eapply extends_put; eauto.
  Qed.
  Lemma extends_buffer f w b w' ok : Extends f (b_file F w) -> buffer_put F file_put w b = (w', ok) -> Extends f (b_file F w').
  Proof.
    intros H. unfold buffer_put. destruct (_ <? _); [intros [= <- <-]; exact H|].
    destruct (if _ <? _ then flush_buf F file_put w else (w, true)) as [w1 o] eqn:E.
    assert (H1 : Extends f (b_file F w1)) by (destruct (_ <? _); [eapply extends_flush; eauto|injection E as <- _; exact H]).
    destruct o; [|intros [= <- <-]; exact H1]. destruct (_ <=? _); [|intros [= <- <-]; exact H1].
    destruct (file_put (b_file F w1) b) as [[f' n] o'] eqn:E2. intros [= <- <-]. cbn [b_file]. eapply extends_put; eauto.
  Qed.
  Lemma file_spec f as_html h f' ok : write_file F file_put f as_html h = (f', ok) ->
    exists p q, bytes (render as_html h) = p ++ q /\ contents f' = contents f ++ p /\ (ok = true -> (N.of_nat (length q) <= 8192)%N).
  Proof.
    unfold write_file. destruct (write_html (buffer_put F file_put) as_html h (Buffered F f [])) as [w o] eqn:E. intros [= <- <-].
    assert (HI : forall w b w' ok, Fits w /\ Extends f (b_file F w) -> buffer_put F file_put w b = (w', ok) ->
      (Fits w' /\ Extends f (b_file F w')) /\ exists p q, b = p ++ q /\ logical w' = logical w ++ p /\ (ok = true -> q = [])).
    { intros v b v' k [H1 H2] Hv. destruct (buffer_spec _ _ _ _ H1 Hv) as (H3 & H4). split; [split; [exact H3|]|exact H4].
      eapply extends_buffer; eauto. }
    assert (HF : Fits (Buffered F f []) /\ Extends f f).
    { split; [unfold Fits; cbn [b_buf length]; apply Nat.le_0_l|]. exists []. now rewrite app_nil_r. }
    destruct (sends_html _ _ logical _ HI as_html h _ _ _ HF E) as ((HF' & HE) & (p & q & E1 & E2 & Hq) & _).
    destruct (flush_buf F file_put w) as [w' o'] eqn:E3. destruct (flush_spec _ _ _ E3) as (L1 & L2 & L3). cbn [fst].
    destruct (extends_flush _ _ _ _ HE E3) as (d & Ed). unfold logical in *. cbn [b_file b_buf] in E2. rewrite app_nil_r in E2.
    rewrite E2, Ed, <- app_assoc in L1. apply app_inv_head in L1. exists d, (b_buf F w' ++ q).
    rewrite E1, <- L1, <- app_assoc. split; [reflexivity|]. split; [exact Ed|]. intros ->. rewrite Hq, app_nil_r by reflexivity.
    unfold Fits, capacity in HF'. lia.
  Qed.
  Lemma file_ok f as_html h : (forall g b, snd (file_put g b) = true) ->
    exists f', write_file F file_put f as_html h = (f', true) /\ contents f' = contents f ++ bytes (render as_html h).
  Proof.
    intro Hok. assert (Hfl : forall w, snd (flush_buf F file_put w) = true).
    { intro w. unfold flush_buf. destruct (b_buf F w) as [|x l]; [reflexivity|]. specialize (Hok (b_file F w) (x :: l)).
      destruct (file_put (b_file F w) (x :: l)) as [[f' n] o]. exact Hok. }
    assert (Hb : forall w b, snd (buffer_put F file_put w b) = true).
    { intros w b. unfold buffer_put. destruct (_ <? _); [reflexivity|].
      destruct (if _ <? _ then flush_buf F file_put w else (w, true)) as [w1 o] eqn:E.
      assert (o = true) as ->. { destruct (_ <? _); [specialize (Hfl w); rewrite E in Hfl; exact Hfl|now injection E]. }
      destruct (_ <=? _); [|reflexivity]. specialize (Hok (b_file F w1) b). destruct (file_put (b_file F w1) b) as [[f' n] o]. exact Hok. }
    unfold write_file. pose proof (succ_html _ _ Hb as_html h (Buffered F f [])) as Hs.
    destruct (write_html (buffer_put F file_put) as_html h (Buffered F f [])) as [w o] eqn:E. cbn in Hs. subst o. eexists. split; [reflexivity|].
    assert (HF : Fits (Buffered F f [])) by (unfold Fits; cbn [b_buf length]; apply Nat.le_0_l).
    destruct (sends_html _ _ logical Fits buffer_spec as_html h _ _ _ HF E) as (HF' & (p & q & E1 & E2 & Hq) & _).
    rewrite Hq, app_nil_r in E1 by reflexivity. subst p.
    specialize (Hfl w). destruct (flush_buf F file_put w) as [w' o'] eqn:E3. cbn in Hfl. subst o'. destruct (flush_spec _ _ _ E3) as (L1 & L2 & L3). cbn [fst].
    unfold logical in *. cbn [b_file b_buf] in E2. rewrite app_nil_r in E2. rewrite L3, app_nil_r, E2 in L1 by reflexivity. exact L1.
  Qed.
End Buffer.
