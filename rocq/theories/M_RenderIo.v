(** Model of /repo/src/compiler/render.rs with a writer that may fail, and of the writer the command line tool uses. *)
From Verif Require Import Base M_Text M_Names M_TagInfo M_Html M_Render.

(** [char::encode_utf8] (Rust std). Used by [write!] in render.rs:23-80. *)
Definition utf8 (c : char) : list N :=
  (if c <? 128 then [c]
   else if c <? 2048 then [192 + c / 64; 128 + c mod 64]
   else if c <? 65536 then [224 + c / 4096; 128 + c / 64 mod 64; 128 + c mod 64]
   else [240 + c / 262144; 128 + c / 4096 mod 64; 128 + c / 64 mod 64; 128 + c mod 64])%N.
(** a text as bytes (std: [str] is UTF-8), written by render.rs:23-80 *)
Definition bytes (s : str) : list N := flat_map utf8 s.

(** A writer ([io::Write]): [put w b] is [write_all]: the writer afterwards, and whether it succeeded. *)
Section Renderer.
  Variable W : Type.
  Variable put : W -> list N -> W * bool.

  (** The operator [?] after a write. [io::Result<()>], render.rs:23-80 *)
  Definition Io := W -> W * bool.
  (** [Ok(())], render.rs:23-80 *)
  Definition done : Io := fun w => (w, true).
  (** the [?] operator, render.rs:23-80 *)
  Definition next (a b : Io) : Io := fun w => let (w, ok) := a w in if ok then b w else (w, false).
  (** [write!(self.writer, ...)]: a call of [write_all] for each piece of the format. render.rs:23-80 *)
  Fixpoint write (pieces : list str) : Io :=
    match pieces with [] => done | p :: ps => next (fun w => put w (bytes p)) (write ps) end.
  (** the [for] loops of render.rs:23-80 *)
  Fixpoint for_each {A} (f : A -> Io) (l : list A) : Io :=
    match l with [] => done | x :: l => next (f x) (for_each f l) end.

  (** render.rs:55-62 *)
  Definition write_attr (kv : str * option str) : Io :=
    next (write [lit " "; attr_display (fst kv)])
      match snd kv with Some v => write [lit "="""; encode_entities v true; lit """"] | None => done end.
  (** render.rs:23-80 *)
  Fixpoint write_html (as_html : bool) (h : html) : Io :=
    match h with
    | HTag name attrs content =>
      next (if as_html then next (write [lit "<"; name]) (next (for_each write_attr attrs) (write [lit ">"])) else done)
        (next (write_html as_html content)
           (if negb as_html then
              if str_eqb name n_p then write [[10%N; 10%N]]
              else if str_eqb name n_hr then write [[10%N; 8213%N; 10%N; 10%N]]
              else if is_block_name name then write [[10%N]]
              else done
            else if negb (is_self_closing name) then write [lit "</"; name; lit ">"]
            else if str_eqb name n_doctype then write [[10%N]]
            else done))
    | HSeq l => (fix all l := match l with [] => done | x :: l => next (write_html as_html x) (all l) end) l
    | HText t => if as_html then write [encode_entities t false] else write [t]
    | HWhitespace => write [[32%N]]
    | HRawNewline => write [[10%N]]
    | HEmpty => done
    end.
End Renderer.
Arguments write {W}. Arguments next {W}. Arguments done {W}. Arguments for_each {W} {A}. Arguments write_attr {W}. Arguments write_html {W}.

(** [BufWriter] (Rust std 1.70, io/buffered/bufwriter.rs) around a file. [file_put f b] is [File::write_all]: the file afterwards,
    how many of the bytes were written, and whether it succeeded. *)
Section BufWriter.
  Variable F : Type.
  Variable file_put : F -> list N -> F * nat * bool.
  (** [BufWriter] (std), papyri.rs:291-293 *)
  Record buffered := Buffered { b_file : F; b_buf : list N }.
  (** the capacity of [BufWriter::new]. papyri.rs:291-293 *)
  Definition capacity : nat := N.to_nat 8192.
  (** [flush_buf]: the bytes that could not be written stay in the buffer. std, used by [BufWriter] of papyri.rs:291-293 *)
  Definition flush_buf (w : buffered) : buffered * bool :=
    match b_buf w with
    | [] => (w, true)
    | _ => let '(f, n, ok) := file_put (b_file w) (b_buf w) in (Buffered f (if ok then [] else skipn n (b_buf w)), ok)
    end.
  (** [write_all], [write_all_cold]. std, used by [BufWriter] of papyri.rs:291-293 *)
  Definition buffer_put (w : buffered) (b : list N) : buffered * bool :=
    if length b <? capacity - length (b_buf w) then (Buffered (b_file w) (b_buf w ++ b), true)
    else
      let '(w, ok) := if capacity - length (b_buf w) <? length b then flush_buf w else (w, true) in
      if ok then
        if capacity <=? length b then let '(f, _, ok) := file_put (b_file w) b in (Buffered f (b_buf w), ok)
        else (Buffered (b_file w) (b_buf w ++ b), true)
      else (w, false).
  (** papyri.rs:291-301: the file is created, the document is rendered to it, and at the end of the function the writer is dropped:
      [Drop for BufWriter] flushes the buffer and ignores whether that succeeds. The result is the file, and whether the tool goes on as
      if it was written. *)
  Definition write_file (f : F) (as_html : bool) (h : html) : F * bool :=
    let '(w, ok) := write_html buffer_put as_html h (Buffered f []) in
    (b_file (fst (flush_buf w)), ok).
End BufWriter.
