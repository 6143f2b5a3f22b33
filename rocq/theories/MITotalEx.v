(** A concrete case for C38_answers: the expression mx and the event tev of TotalEx.v, and an event
    about the same variable. *)
From Coq Require Import List Bool String Reals Lra Lia ZArith QArith Qreals.
From Verif Require Import Base Num Sets SetSpec SetIv SetProofs SetOr SetOps SetAlg SetBuilt
  Poly Trans TransSpec TransFacts PolyProofs InvProofs InvMain EvProofs ArithProofs
  Dnf DnfSpec DnfProofs DnfUnion PropDnf Logs Spe SpeSpec SpeFacts SpeRect LeafProofs LeafEvents LeafCond SpeCons LeafGiven MemoProofs NormSorts LogprobProofs LogprobTop SpeEq SimplifyProofs CondTypes CondProofs CondTop PropSpe
  SpeOps Prog ProgSpec ProgEvents MISpec PropMI TotalSpec TotalSets TotalSolve TotalProofs PropTotal PropMITotal Instances Uniform SpeEx MIEx
  OpsProofs BuildProofs TransformProofs PropCons ConsEx Same ProgEx DensSpec DensProofs ConstrainProofs DensLimit DensPoint PropDens DensEx TotalEx CondTotalEx.
Import ListNotations.
Local Open Scope R_scope.
Local Open Scope string_scope.

(** (X >= 2 and Y << {'a'}) or X < 1, against X < 1 or Y << {'a'} *)
Example C38_answers_case : wf_spe elaw mx /\ typed exnom exenvof mx /\ distinct (ids_of mx) mx /\ open_leaves exnom whole true mx /\ is_leaf mx = false /\
  direct exnom whole none tev /\ direct exnom whole none orv /\ Forall nonvoid (lits tev) /\ Forall nonvoid (lits orv) /\
  (forall x, In x (symbols tev) -> own mx x) /\ (forall x, In x (symbols orv) -> own mx x) /\
  okb (mutual_information ioQ po 9 (ids_of mx) mx tev orv) = true.
Proof.
  split; [exact mx_wf|]. split; [exact mx_typed|]. split; [apply ids_distinct|]. split; [exact mx_openz|]. split; [reflexivity|].
  split; [exact direct_tevz|]. split; [exact direct_orv|]. split; [repeat constructor; discriminate|]. split; [repeat constructor; discriminate|]. split; [cbn; intuition|]. split; [cbn; intuition|]. vm_compute. reflexivity.
Qed.
