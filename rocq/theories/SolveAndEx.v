(** A case for C56 on combinations of comparisons. *)
From Coq Require Import List Bool String Reals Lra Lia ZArith QArith Qabs Qreals.
From Verif Require Import Base Num Sets SetSpec Poly Trans TransSpec PolyEx SetBuilt Instances ConsEx TotalEx Spe SpeSpec SpeEx SolveSpec AskSpec LinEx AskEx FunEx SolveAndSpec PropSolveAnd.
Import ListNotations.
Local Open Scope R_scope.
Local Open Scope string_scope.

(** (X - 1/2 <= 0 and (X - 1/2 > -1/4 and 1 + 2*X > 9/8) and X in [0, 3/8)) or |X - 1/2| >= 3: the
    numbers in (1/4, 3/8), up to -5/2 and from 7/2 *)
Definition sev : tr QS := EOr [EAnd [wle; EAnd [wgt; vgt]; xlt]; tge].
Lemma sev_settled : settled pl "X" sev.
Proof.
  assert (W : forall i : interval QS, wf_iv i -> pinned pl "X" (EBasic KInt WX (PB (BInt i))) /\ pinned pl "X" (EBasic KInt VX (PB (BInt i))) /\ pinned pl "X" (EBasic KInt (TId "X") (PB (BInt i)))).
  { intros i Wi. cbn [pinned]. split; [|split]; (split; [split; [exact Wi|]|split; [reflexivity|exact Logic.I]]).
    - cbn [chain WX]. split; [apply lin_q; unfold Q2R; cbn; lra|exact Logic.I].
    - cbn [chain VX]. split; [apply lin_q; unfold Q2R; cbn; lra|exact Logic.I].
    - exact Logic.I. }
  assert (Wl : pinned pl "X" wle) by (refine (proj1 (W _ _)); clear; repeat split; cbn; auto; discriminate). assert (Wg : pinned pl "X" wgt) by (refine (proj1 (W _ _)); clear; repeat split; cbn; auto; discriminate).
  assert (Vg : pinned pl "X" vgt) by (refine (proj1 (proj2 (W (mkIv (N:=QS) (Fin (9#8)%Q) PInf true true) _))); clear; repeat split; cbn; auto; discriminate). assert (Kx : pinned pl "X" xlt) by (split; [split; [clear; repeat split; cbn; try discriminate; try (unfold Q2R; cbn; lra)|exact Logic.I]|split; [reflexivity|exact Logic.I]]).
  right. split; [discriminate|]. split; [left; cbn [pinned]; split; [discriminate|]; split; [exact Wl|]; split; [split; [discriminate|split; [exact Wg|split; [exact Vg|exact Logic.I]]]|]; split; [exact Kx|exact Logic.I]|].
  split; [|exact Logic.I]. right. split; [|reflexivity]. split; [repeat split; cbn; auto; discriminate|apply TX_chain; discriminate].
Qed.
Definition sev_set : pset QS := PUnion [BInt (mkIv (N:=QS) NInf (Fin (-5#2)%Q) true false); BInt (mkIv (N:=QS) (Fin (1#4)%Q) (Fin (3#8)%Q) true true); BInt (mkIv (N:=QS) (Fin (7#2)%Q) PInf false true)].
Definition sev_right : bool := match solve ioQ pl 9 sev with Ok r => peqb r sev_set | Raise _ => false end.
Example C56_combination_case : settled pl "X" sev /\ sev_right = true.
Proof. split; [exact sev_settled|]. vm_compute. reflexivity. Qed.

Definition all_solve_and_properties := @C56_combination_solved_partial.
Print Assumptions all_solve_and_properties.
