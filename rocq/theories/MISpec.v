(** What mutual information means: a function of the joint law of two events, independent of the
    code.  src/spe.py:87-103 is the code that has to compute it. *)
From Coq Require Import Reals Lra.
From Verif Require Import Base Num Logs Trans TransSpec Spe SpeSpec.
Local Open Scope R_scope.

(** the contribution of a cell of probability p whose marginals are a and b; 0 ln 0 is 0 *)
Definition cell (p a b : R) : R := if dec (p = 0) then 0 else p * ln (p / (a * b)).
Section MI.
  Context {N : numsys} {S : logsys} {D : distsys N S} (dlaw : dist D -> (fval -> R) -> R).
  (** the probability of a set of outcomes *)
  Definition chance (s : spe D) (P : asg -> Prop) : R := Pr dlaw s P.
  (** the information that the events P and Q have about each other, in nats *)
  Definition information (s : spe D) (P Q : asg -> Prop) : R :=
    let p P' Q' := cell (chance s (fun w => P' w /\ Q' w)) (chance s P') (chance s Q') in
    let not (P' : asg -> Prop) w := ~ P' w in
    p P Q + p P (not Q) + p (not P) Q + p (not P) (not Q).
  Definition independent (s : spe D) (P Q : asg -> Prop) : Prop := chance s (fun w => P w /\ Q w) = chance s P * chance s Q.
  (** the uncertainty about an event *)
  Definition uncertainty (s : spe D) (P : asg -> Prop) : R := information s P P.
End MI.
