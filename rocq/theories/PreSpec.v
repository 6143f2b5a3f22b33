(** What preprocess has to do with the text of a program (C53). *)
From Coq Require Import List Bool Ascii String.
From Verif Require Import Pre.
Import ListNotations.
Local Open Scope list_scope.

Definition space (t : text) : Prop := forall c, In c t -> is_space c = true.
Definition one_line (t : text) : Prop := ~ In newline t.
Definition contains (t w : text) : Prop := exists a b, t = a ++ w ++ b.
(** the text starts with w, after spaces *)
Definition starts (t w : text) : Prop := exists i r, space i /\ t = i ++ w ++ r.

(** [~=] becomes [=] *)
Inductive plain_text : text -> text -> Prop :=
| PT_end t : ~ contains t (txt "~=") -> plain_text t t
| PT_more a t t' : ~ contains a (txt "~=") -> plain_text t t' -> plain_text (a ++ txt "~=" ++ t) (a ++ txt "=" ++ t').

(** the word switch and a bracket, or the word switch alone *)
Definition switches (t : text) : Prop :=
  exists i w r, space i /\ space w /\ t = i ++ txt "switch" ++ w ++ r /\ (r = [] \/ exists r', r = txt "(" ++ r').
(** a bracket followed by a colon *)
Definition closes (t : text) : Prop := exists a w b, space w /\ t = a ++ txt ")" ++ w ++ txt ":" ++ b.
(** in, followed by a space or at the end of the text *)
Definition has_in (t : text) : Prop := exists a b, t = a ++ txt "in" ++ b /\ (b = [] \/ exists c b', b = c :: b' /\ is_space c = true).

(** What becomes of a line in which ~= has become =. *)
Inductive rewritten : text -> text -> Prop :=
| R_plain t : ~ switches t -> rewritten t t
| R_switch i w1 e w2 w3 v w5 s w6 rest :
    space i -> space w1 -> space w2 -> space w3 -> space w5 -> space w6 ->
    e <> [] -> v <> [] -> w5 <> [] -> (exists c s', s = c :: s' /\ is_space c = false) ->
    let tail := s ++ txt ")" ++ w6 ++ txt ":" ++ rest in
    ~ contains (v ++ txt "in" ++ w5 ++ tail) (txt "cases") ->
    ~ has_in tail ->
    ~ closes rest ->
    rewritten
      (i ++ txt "switch" ++ w1 ++ txt "(" ++ e ++ txt ")" ++ w2 ++ txt "cases" ++ w3 ++ txt "(" ++ v ++ txt "in" ++ w5 ++ tail)
      (i ++ txt "for " ++ v ++ txt " in switch(" ++ e ++ txt ", " ++ s ++ txt "):" ++ rest).

(** The line does not begin in the middle of the head of a switch. *)
Definition begins (t : text) : Prop :=
  ~ starts t (txt ")") /\ ~ starts t (txt ":") /\ ~ starts t (txt "in") /\ ~ starts t (txt "cases").

(** The lines of a program, and the lines of the text that preprocess returns. *)
Inductive program : list text -> list text -> Prop :=
| P_end : program [] []
| P_blank l ls out : one_line l -> space l -> program ls out -> program (l :: ls) out
| P_line l l' l'' ls out :
    one_line l -> ~ space l -> plain_text l l' -> begins l' -> rewritten l' l'' ->
    program ls out -> program (l :: ls) (l'' :: out).
