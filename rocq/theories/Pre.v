(** Model of SPPL_Compiler.preprocess, which turns the text of an SPPL program into text that
    Python can parse (C53).

    Simplifications.  A text is a list of the code points below 256.  os.linesep is a line feed.
    The engine of the module re is modelled on the patterns that preprocess uses: sequences of
    characters and of greedy repetitions of a class of characters, tried in the order of the
    engine: the longest repetition first. *)
From Coq Require Import List Bool Ascii String Arith.
Import ListNotations.
Local Open Scope list_scope.

Definition text := list ascii.
Definition txt : string -> text := list_ascii_of_string.
(** the characters that \s matches and that str.strip() removes: Python *)
Definition is_space (c : ascii) : bool :=
  let n := nat_of_ascii c in
  (Nat.leb 9 n && Nat.leb n 13) || (Nat.leb 28 n && Nat.leb n 32) || Nat.eqb n 133 || Nat.eqb n 160.
(** os.linesep *)
Definition newline : ascii := "010"%char.
(** the characters that . matches: Python *)
Definition is_dot (c : ascii) : bool := negb (Ascii.eqb c newline).

(** src/compilers/sppl_to_python.py:349: self.source.split(os.linesep) *)
Fixpoint split_lines (s : text) : list text :=
  match s with
  | [] => [[]]
  | c :: s =>
    if Ascii.eqb c newline then [] :: split_lines s
    else match split_lines s with [] => [[c]] | l :: ls => (c :: l) :: ls end
  end.
(** src/compilers/sppl_to_python.py:350: os.linesep.join *)
Fixpoint join_lines (ls : list text) : text :=
  match ls with
  | [] => []
  | [l] => l
  | l :: ls => l ++ newline :: join_lines ls
  end.
(** src/compilers/sppl_to_python.py:350: if l.strip() *)
Definition nonblank (l : text) : bool := existsb (fun c => negb (is_space c)) l.
(** src/compilers/sppl_to_python.py:351: source_prime.replace('~=', '=') *)
Fixpoint replace_tilde (s : text) : text :=
  match s with
  | [] => []
  | c :: s' =>
    match s' with
    | d :: s'' => if Ascii.eqb c "~" && Ascii.eqb d "=" then d :: replace_tilde s'' else c :: replace_tilde s'
    | [] => [c]
    end
  end.

(** ** Patterns of the module re *)
Inductive pat :=
| Chr (c : ascii)
(** a class with * (least 0) or + (least 1), in a group or not *)
| Many (p : ascii -> bool) (group : bool) (least : nat).
(** the groups of the match, and what follows it *)
Definition found := option (list text * text).
Definition with_group (g : bool) (t : text) (r : found) : found :=
  match r with Some (cs, rest) => Some (if g then t :: cs else cs, rest) | None => None end.
(** a repetition that has taken [acc], the last character first, goes on with [k] *)
Section Greedy.
  Context (p : ascii -> bool) (g : bool) (least : nat) (k : text -> found).
  Fixpoint greedy (acc s : text) : found :=
    let stop := if Nat.leb least (List.length acc) then with_group g (rev acc) (k s) else None in
    match s with
    | c :: s' => if p c then match greedy (c :: acc) s' with Some r => Some r | None => stop end else stop
    | [] => stop
    end.
End Greedy.
Fixpoint matches (r : list pat) (s : text) : found :=
  match r with
  | [] => Some ([], s)
  | Chr c :: r => match s with d :: s' => if Ascii.eqb c d then matches r s' else None | [] => None end
  | Many p g least :: r => greedy p g least (matches r) [] s
  end.
(** src/compilers/sppl_to_python.py:353: the pattern after ^ *)
Definition word (w : string) : list pat := map Chr (txt w).
Definition spaces : pat := Many is_space false 0.
Definition switch_pattern : list pat :=
  Many is_space true 0 :: word "switch" ++ spaces :: word "(" ++ Many is_dot true 1 :: word ")" ++ spaces :: word "cases" ++
  spaces :: word "(" ++ Many is_dot true 1 :: spaces :: word "in" ++ Many is_space false 1 :: Many is_dot true 1 ::
  spaces :: word ")" ++ spaces :: word ":".
(** src/compilers/sppl_to_python.py:354: the replacement *)
Definition switch_text (groups : list text) : text :=
  match groups with
  | [g1; g2; g3; g4] => g1 ++ txt "for " ++ g3 ++ txt " in switch(" ++ g2 ++ txt ", " ++ g4 ++ txt "):"
  | _ => []
  end.
(** re.sub with MULTILINE: src/compilers/sppl_to_python.py:352-355.  [bol]: the position is the beginning of a line *)
Fixpoint sub (n : nat) (bol : bool) (s : text) : text :=
  match n with
  | O => s
  | S n =>
    match s with
    | [] => []
    | c :: s' =>
      match (if bol then matches switch_pattern s else None) with
      | Some (groups, rest) => switch_text groups ++ sub n false rest
      | None => c :: sub n (Ascii.eqb c newline) s'
      end
    end
  end.
(** src/compilers/sppl_to_python.py:348-356 preprocess *)
Definition preprocess (source : text) : text :=
  let s := join_lines (filter nonblank (split_lines source)) in
  let s := replace_tilde s in
  sub (S (List.length s)) true s.
