(** Concrete cases for PropOrderMI.v: two orders of the elements of sets and two numberings of the
    objects. *)
From Coq Require Import List Bool String Reals Lra Lia ZArith QArith Qabs Qreals.
From Verif Require Import Base Num Sets SetSpec SetBuilt Poly Trans TransSpec Dnf DnfSpec Logs Spe SpeSpec SpeFacts MemoProofs CondTypes PropSpe Uniform Instances SpeEx
  SpeOps ConsEx Same ProgEx DensEx MISpec PropMI MIEx SolveSpec AskSpec LinEx AskEx FunSpec FunEx PropMITotal MIFunSpec PropMIFun MIFunEx MITotalEx PropOrderMI TotalSpec TotalEx CondTotalEx.
Import ListNotations.
Local Open Scope R_scope.
Local Open Scope string_scope.

(** |X - 1/2| < 1/4 against Y << {'a'}, asked of sx of SpeEx.v *)
Example C61_function_information_case : exists r, mutual_information ioQ pl 9 (ids_of sx) sx tlt yina = Ok r /\ mutual_information (io_rev QS) pl 7 exident sx tlt yina = Ok r.
Proof.
  destruct C38_function_answers_case as (W & Ds & Nl & Vx & Vy & Pr & Ga & Gb & Ca & Cb & Ra & Rb & _).
  now apply (C61_function_information_partial ioQ (io_rev QS) pl pl 9 7 elaw (ids_of sx) exident (fun _ => 0%Z) exnom any any sx "X" "Y" tlt yina ltac:(lia) ltac:(lia) W Ds sx_distinct Nl ltac:(discriminate)).
Qed.
(** the events of MITotalEx.v *)
Example C61_information_case : exists r, mutual_information ioQ SpeEx.po 9 (ids_of mx) mx tev orv = Ok r /\ mutual_information (io_rev QS) pl 7 (ids_of mx) mx tev orv = Ok r.
Proof.
  destruct C38_answers_case as (W & T & Ds & O & Nl & Da & Db & Na & Nb & Va & Vb & _).
  exact (C61_information_partial ioQ (io_rev QS) SpeEx.po pl 9 7 elaw (ids_of mx) (ids_of mx) (fun _ => 0%Z) exnom whole exenvof mx tev orv ltac:(lia) ltac:(lia) W T Ds Ds O Nl Da Db Na Nb Va Vb).
Qed.
