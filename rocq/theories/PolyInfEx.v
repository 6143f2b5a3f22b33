(** Concrete cases for C59, and the infinite solutions that the code loses. *)
From Coq Require Import List Bool Reals QArith Qreals Lra.
From Verif Require Import Base Num Sets SetSpec SetBuilt Poly PolyEx Trans PolyInf PolyInfSpec PropPolyInf.
Import ListNotations.

(** 10 x - x**3 and x**2 + 1 *)
Definition cubic : list (num QS) := [0; 10; 0; -1]%Q.
Definition square1 : list (num QS) := [1; 0; 1]%Q.

(** C59: 10 x - x**3 tends to -oo at oo and to oo at -oo *)
Example C59_ffwd_case : value (Rpoly cubic) PInf NInf /\ value (Rpoly cubic) NInf PInf /\ value (Rpoly square1) NInf PInf /\ value (Rpoly (N:=QS) [3]%Q) PInf (Fin (Q2R 3)).
Proof.
  split; [exact (proj2 (C59_ffwd cubic PInf NInf) eq_refl)|]. split; [exact (proj2 (C59_ffwd cubic NInf PInf) eq_refl)|].
  split; [exact (proj2 (C59_ffwd square1 NInf PInf) eq_refl)|].
  apply (proj2 (C59_ffwd (N:=QS) [3]%Q PInf (Fin (Q2R 3)))). change (Fin (Q2R 3) = Fin (Q2R (3 + 0 * 0))). f_equal.
Qed.
(** 10 x - x**3 = -oo at oo only; x**2 + 1 = oo at both; x**2 + 1 = -oo nowhere; 3 = oo raises *)
Example C59_equality_case : equality_inf cubic NInf = Ok (PB (BReal [PInf])) /\ equality_inf square1 NInf = Ok PEmpty /\
  (exists s, equality_inf square1 PInf = Ok s /\ mem (RNum PInf) s /\ mem (RNum NInf) s /\ ~ mem (RNum (Fin 0%R)) s) /\ equality_inf (N:=QS) [3]%Q PInf = Raise AssertionError.
Proof.
  split; [reflexivity|]. split; [reflexivity|]. split; [|reflexivity]. eexists. split; [reflexivity|]. split; [|split].
  - exists PInf. cbn. auto.
  - exists NInf. cbn. auto.
  - intros (y & [<-|[<-|[]]] & E); discriminate E.
Qed.
(** 10 x - x**3 <= -oo at oo only, and nowhere when infinite solutions do not count; every number and both infinities satisfy <= oo *)
Example C59_inequality_case : inequality_inf ioQ cubic NInf false true = Ok (PB (BReal [PInf])) /\ inequality_inf ioQ cubic NInf false false = Ok PEmpty /\
  inequality_inf ioQ cubic PInf false true = Ok ExtReals /\ inequality_inf ioQ cubic PInf true false = Ok Reals.
Proof. repeat split. Qed.
Lemma C59_below_case : exists s, inequality_inf ioQ cubic PInf true true = Ok s.
Proof. eexists. reflexivity. Qed.

(** Refuted: 10 x - x**3 < oo also at oo, where its value is -oo, but the set returned is the real
    line without oo.  The test of this case, tests/test_poly.py:27, compares the result with
    Reals | FiniteReal(oo), which loses oo in the same way. *)
Theorem C59_inequality_refuted : exists cs e w s, inequality_inf ioQ cs PInf true true = Ok s /\ value (Rpoly (N:=QS) cs) e w /\ elt w PInf /\ ~ mem (RNum e) s.
Proof.
  exists cubic, PInf, NInf. destruct C59_below_case as (s & E). exists s. split; [exact E|]. split; [apply C59_ffwd_case|]. split; [exact I|].
  intros M. apply (C59_below_infinity ioQ cubic s E) in M. destruct M as (x & M). discriminate M.
Qed.
(** Refuted: x**2 takes the value oo at oo, but Poly.range does not have oo, and Poly.finv(oo) is empty *)
Theorem C59_range_refuted : exists cs s, poly_range ioQ (po_small QS) cs = Ok s /\ value (Rpoly (N:=QS) cs) PInf PInf /\ ~ mem (RNum PInf) s /\ finv_poly ioQ (po_small QS) cs PInf = Ok PEmpty.
Proof.
  exists [0; 0; 1]%Q. eexists. split; [reflexivity|]. split; [exact (proj2 (C59_ffwd (N:=QS) [0; 0; 1]%Q PInf PInf) eq_refl)|].
  edestruct (C59_range ioQ (po_small QS) [0; 0; 1]%Q) as (A & _ & B & _); [reflexivity|]. split; [exact A|exact B].
Qed.

Definition all_polyinf_properties := (@C59_ffwd, @C59_equality, @C59_equality_returns, @C59_inequality_partial, @C59_below_infinity, @C59_range, C59_inequality_refuted, C59_range_refuted).
Print Assumptions all_polyinf_properties.
