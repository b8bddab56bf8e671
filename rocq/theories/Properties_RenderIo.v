(** Property theorems C78: rendering to a writer that may fail. *)
From Verif Require Import Base M_Names M_Html M_Render M_RenderIo S_RenderIo P_RenderIo.

(** C78. Rendering to any writer writes the document as UTF-8, or, if the writer fails, a part of it from the beginning; it says
    so exactly in the second case, and the writer is not used again after it failed. *)
Theorem C78_writer : forall W put contents as_html h (w w' : W) ok, Writer put contents -> write_html put as_html h w = (w', ok) ->
  exists written rest, bytes (render as_html h) = written ++ rest /\ contents w' = contents w ++ written /\
    (ok = true -> rest = []) /\ (ok = false -> exists w0 b, put w0 b = (w', false)).
Proof.
  intros W put contents as_html h w w' ok HW E.
  destruct (sends_html W put contents (fun _ => True) (fun a b c d _ H => conj I (HW a b c d H)) as_html h w w' ok I E) as (_ & (p & q & H1 & H2 & H3) & H4).
  exists p, q. auto.
Qed.
Print Assumptions C78_writer.
Theorem C78_success : forall W (put : W -> list N -> W * bool) as_html h w, (forall w b, snd (put w b) = true) -> snd (write_html put as_html h w) = true.
Proof. intros W put as_html h w H. now apply succ_html. Qed.
Print Assumptions C78_success.
Theorem C78_utf8 : forall s, Forall (fun c => (c < 1114112)%N) s -> Utf8 (bytes s) s.
Proof. exact bytes_utf8. Qed.
Print Assumptions C78_utf8.

(** The files the command line tool writes: whatever fails, a file has a part of the document from the beginning; if nothing fails,
    all of it. If the tool says that it has written the file, at most the last 8192 bytes are missing ... *)
Theorem C78_file_partial : forall F put contents as_html h (f f' : F) ok, File put contents -> write_file F put f as_html h = (f', ok) ->
  (exists written rest, bytes (render as_html h) = written ++ rest /\ contents f' = contents f ++ written /\
     (ok = true -> (N.of_nat (length rest) <= 8192)%N)) /\
  ((forall g b, snd (put g b) = true) -> ok = true /\ contents f' = contents f ++ bytes (render as_html h)).
Proof.
  intros F put contents as_html h f f' ok HF E. split; [exact (file_spec F put contents HF f as_html h f' ok E)|].
  intro Hok. destruct (file_ok F put contents HF f as_html h Hok) as (g & E1 & E2). rewrite E in E1. injection E1 as -> ->. auto.
Qed.
Print Assumptions C78_file_partial.
(** ... but they can be: if the disk is full, a short document is not written at all, and the tool says that it was. *)
Definition full_disk (f : list N) (b : list N) : list N * nat * bool := (f, 0, false).
Theorem C78_file_refuted : exists put contents h f, File put contents /\ write_file (list N) put f true h = (f, true) /\
  contents f = [] /\ render true h = lit "<p>Hello</p>".
Proof.
  exists full_disk, (fun f => f), (HTag (lit "p") [] (HText (lit "Hello"))), []. split; [|split; [vm_compute; reflexivity|split; vm_compute; reflexivity]].
  intros f b f' n ok [= <- <- <-]. cbn. rewrite app_nil_r. split; [reflexivity|discriminate].
Qed.
Print Assumptions C78_file_refuted.

(** A disk with room for so many bytes *)
Definition small_disk (f : nat * list N) (b : list N) : nat * list N * nat * bool :=
  let n := Nat.min (fst f) (length b) in (fst f - n, snd f ++ firstn n b, n, length b <=? n).
Example C78_nonvacuous : let put := fun w b => let '(w, _, ok) := small_disk w b in (w, ok) in
  Writer put snd /\ File small_disk snd /\
  write_html put true (HTag (lit "p") [] (HText [228%N])) (6, []) = ((0, [60; 112; 62; 195; 164; 60]%N), false) /\
  snd (write_html put true (HTag (lit "p") [] (HText [228%N])) (9, [])) = true.
Proof.
  cbv zeta. split; [|split; [|split; vm_compute; reflexivity]].
  - intros w b w' ok. unfold small_disk. intros [= <- <-]. cbn [snd]. eexists (firstn _ b), (skipn _ b). rewrite firstn_skipn. split; [reflexivity|].
    split; [reflexivity|]. intro H. apply Nat.leb_le in H. now apply skipn_all2.
  - intros f b f' n ok. unfold small_disk. intros [= <- <- <-]. cbn [snd]. split; [reflexivity|]. intro H. now apply Nat.leb_le in H.
Qed.
