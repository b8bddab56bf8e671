(** Model of /repo/src/compiler/sequence.rs: how a sequence of pieces becomes the content of a tag. *)
From Verif Require Import Base M_Text M_Names M_TagInfo M_Html.

(** The type errors raised here (errors/type_error.rs), with the tag names they mention. [BlockNotAllowedIn] and
    [BlockNotAllowed] (sequence.rs:152-153) cannot occur: a block always has a first block tag. *)
Inductive seq_error :=
| TagNotAllowedIn (child parent : str)
| TagNotAllowed (child : str)
| NoContentAllowed
| ParagraphBreakNotAllowed.

(** sequence.rs:9-15 *)
Definition wrap_with (k : content_kind) : str :=
  match k with
  | RequireOneOf (n :: _) => n
  | RequireBlock n | AllowBlock n => n
  | _ => n_p
  end.

(** sequence.rs:68-74. [require_inline] is not stored: it is a function of the content kind (line 83). *)
Inductive builder :=
| Builder (parent : option str) (kind : content_kind) (children : list html) (next : option builder).
(** sequence.rs:68-74: the field [content_kind] *)
Definition b_kind (b : builder) : content_kind := let (_, k, _, _) := b in k.
(** sequence.rs:68-74: the field [children] *)
Definition b_children (b : builder) : list html := let (_, _, c, _) := b in c.
(** sequence.rs:68-74: the field [next_child] *)
Definition b_next (b : builder) : option builder := let (_, _, _, n) := b in n.
(** sequence.rs:77-85 *)
Definition b_new (kind : content_kind) (parent : option str) : builder := Builder parent kind [] None.
(** sequence.rs:83 *)
Definition require_inline (k : content_kind) : bool :=
  match k with RequireInline | RequireInlineNoLineBreaks => true | _ => false end.

(** sequence.rs:93-95: pop trailing white space children *)
Fixpoint pop_white_rev (l : list html) : list html :=
  match l with [] => [] | x :: t => if html_is_whitespace x then pop_white_rev t else l end.
(** sequence.rs:93-95 *)
Definition pop_white (l : list html) : list html := rev (pop_white_rev (rev l)).

(** sequence.rs:87-103 and 127-136 ([close_child], inlined as [closed]). *)
Fixpoint b_into_html (b : builder) : html + seq_error :=
  match b with
  | Builder _ kind children next =>
    let child := match next with None => inl HEmpty | Some c => b_into_html c end in
    match kind, children with
    | AllowBlock _, [] => child
    | _, _ =>
      match child with
      | inr e => inr e
      | inl h =>
        let closed := if html_is_empty h then children else children ++ [in_tag h (wrap_with kind)] in
        let result := from_iter (pop_white closed) in
        match kind with
        | RequireEmpty => if html_is_empty result then inl result else inr NoContentAllowed
        | _ => inl result
        end
      end
    end
  end.
(** sequence.rs:127-136. The pending child is dropped even when turning it into HTML fails. *)
Definition b_close_child (b : builder) : option seq_error * builder :=
  match b with
  | Builder parent kind children None => (None, b)
  | Builder parent kind children (Some c) =>
    match b_into_html c with
    | inr e => (Some e, Builder parent kind children None)
    | inl h =>
      (None, Builder parent kind (if html_is_empty h then children else children ++ [in_tag h (wrap_with kind)]) None)
    end
  end.
(** sequence.rs:105-125 *)
Definition b_newline (b : builder) : option seq_error * builder :=
  match b_kind b with
  | RequireBlock _ | RequireOneOf _ | AllowBlock _ => b_close_child b
  | RequireInline =>
    match b_close_child b with
    | (Some e, b) => (Some e, b)
    | (None, Builder parent kind children next) => (None, Builder parent kind (children ++ [html_tag n_br HEmpty]) next)
    end
  | RequireInlineNoLineBreaks => (Some ParagraphBreakNotAllowed, b)
  | RequireEmpty => (None, b)
  end.
(** sequence.rs:138-183. [fuel] bounds the nesting of implicit wrappers; proved sufficient ([b_push_total]). *)
Fixpoint b_push (fuel : nat) (child : html) (b : builder) : outcome (option seq_error * builder) :=
  match fuel with
  | 0 => OutOfFuel
  | S fuel =>
    if html_is_empty child then Ret (None, b) else
    match b with
    | Builder parent kind children next =>
      match (if require_inline kind then block_kind child else None) with
      | Some tag =>
        Ret (Some (match parent with Some p => TagNotAllowedIn tag p | None => TagNotAllowed tag end), b)
      | None =>
        let is_allowed :=
          match kind with
          | RequireOneOf names => html_is_all names child
          | RequireBlock _ | AllowBlock _ => html_is_block child
          | _ => true
          end in
        if is_allowed then
          Ret match b_close_child b with
              | (Some e, b) => (Some e, b)
              | (None, Builder parent kind children next) =>
                (None, match children with
                       | [] => if html_is_whitespace child then Builder parent kind [] next
                               else Builder parent kind [child] next
                       | _ => Builder parent kind (children ++ [child]) next
                       end)
              end
        else
          let into := fun c =>
            obind (b_push fuel child c) (fun r => let (e, c) := r in Ret (e, Builder parent kind children (Some c))) in
          match next with
          | Some c => into c
          | None =>
            if html_is_whitespace child then Ret (None, b)
            else into (b_new (content_kind_for (wrap_with kind)) (Some (wrap_with kind)))
          end
      end
    end
  end.
(** No counterpart in the code: how deep [push] (sequence.rs:138-183) can nest *)
Definition push_fuel : nat := 4.

(** sequence.rs:27-40 and 42-65 for the pieces that reach the builder: HTML ([AST::Expr], [CodeFence], [Text], [Char],
    [Whitespace]) and paragraph breaks. Every error is reported and the next piece is processed. *)
Inductive item := Piece (h : html) | ParagraphBreak.
(** sequence.rs:42-65: a paragraph break, or a piece of content *)
Definition b_item (i : item) (b : builder) : outcome (option seq_error * builder) :=
  match i with Piece h => b_push push_fuel h b | ParagraphBreak => Ret (b_newline b) end.
(** the loop of sequence.rs:27-40 *)
Fixpoint b_items (items : list item) (b : builder) : outcome (list seq_error * builder) :=
  match items with
  | [] => Ret ([], b)
  | i :: items =>
    obind (b_item i b) (fun r => let (e, b) := r in
    obind (b_items items b) (fun r => let (es, b) := r in
    Ret (match e with Some e => e :: es | None => es end, b)))
  end.
(** sequence.rs:27-40 *)
Definition compile_items (kind : content_kind) (parent : option str) (items : list item)
  : outcome (list seq_error * html) :=
  obind (b_items items (b_new kind parent)) (fun r => let (es, b) := r in
  Ret match b_into_html b with inl h => (es, h) | inr e => (es ++ [e], HEmpty) end).
