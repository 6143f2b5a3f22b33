(** A concrete case for C38_function_answers: sx of SpeEx.v, a mixture in which X and Y depend on
    each other. *)
From Coq Require Import List Bool String Reals Lra Lia ZArith QArith Qabs Qreals.
From Verif Require Import Base Num Sets SetSpec SetIv SetProofs SetOr SetOps SetAlg SetBuilt
  Poly Trans TransSpec TransFacts PolyProofs InvProofs InvMain EvProofs ArithProofs PolyEx
  Dnf DnfSpec DnfProofs DnfUnion Logs Spe SpeSpec SpeFacts SpeRect LeafProofs LeafEvents LeafCond SpeCons LeafGiven MemoProofs PropTrans NormSorts LogprobProofs LogprobTop SpeEq SimplifyProofs CondTypes CondProofs CondTop PropSpe Uniform Instances SpeEx
  SpeOps OpsProofs BuildProofs TransformProofs PropCons ConsEx Same ProgEx DensSpec DensProofs ConstrainProofs DensLimit DensPoint PropDens DensEx TotalSpec PropTotal TotalEx SolveSpec InvTotal AskSpec PropAsk LinEx AskEx TotalProofs FunSpec FunTotal PropFun FunEx MISpec PropMI MIEx MIFunSpec PropMIFun.
Import ListNotations.
Local Open Scope R_scope.
Local Open Scope string_scope.

(** |X - 1/2| < 1/4 *)
Lemma tlt_compares : compares pl exnom any "X" tlt.
Proof.
  left. exists TX, (1#4)%Q. split; [exists true; left; reflexivity|]. split; [apply TX_chain; discriminate|]. split; [cbn; discriminate|]. split; [reflexivity|]. split; [reflexivity|]. intros r. exact Logic.I.
Qed.
(** Y << {'a'} *)
Lemma yina_compares : compares pl exnom any "Y" yina.
Proof. right. exists ["a"], None. split; [reflexivity|]. split; [discriminate|reflexivity]. Qed.
Lemma both_defined : forall e : tr QS, e = tlt \/ e = yina -> surely elaw sx (fun w => regular true e w /\ teval e w <> None).
Proof.
  intros e He w. apply (law_null_sub (den_kernel elaw sx sx_wf w) (fun w => ~ (is_num (w "X") /\ is_num (w "Z") /\ exists z, w "Y" = FStr z))); [apply sx_sorted|].
  intros a H K. apply H. destruct K as ((x & Ex) & _ & (y & Ey)). destruct He as [-> | ->].
  - split; [cbn; repeat split; intros; discriminate|]. cbn [teval tlt TX WX]. rewrite Ex. cbn [num_op]. match goal with |- truth ?P <> None => destruct (truth_def P) as [->| ->] end; discriminate.
  - split; [cbn; repeat split; intros; try discriminate; now left|]. cbn [teval yina]. rewrite Ey. match goal with |- truth ?P <> None => destruct (truth_def P) as [->| ->] end; discriminate.
Qed.
Example C38_function_answers_case : wf_spe elaw sx /\ distinct (ids_of sx) sx /\ is_leaf sx = false /\ vars sx "X" /\ vars sx "Y" /\ prepared pl exnom any any (fun z => z = "X" \/ z = "Y") true sx /\
  gev tlt /\ gev yina /\ compares pl exnom any "X" tlt /\ compares pl exnom any "Y" yina /\
  surely elaw sx (fun w => regular true tlt w /\ teval tlt w <> None) /\ surely elaw sx (fun w => regular true yina w /\ teval yina w <> None) /\
  okb (mutual_information ioQ pl 9 (ids_of sx) sx tlt yina) = true.
Proof.
  split; [exact sx_wf|]. split; [apply ids_distinct|]. split; [reflexivity|]. split; [cbn; auto|]. split; [cbn; auto|].
  split.
  { set (A := fun z => z = "X" \/ z = "Y"). assert (H : forall z, A z -> In z (map fst exenv) -> z = "X") by (unfold A; cbn; intuition; subst; try discriminate; auto).
    assert (L : lone A exenv) by (intros y z Ay Az Iy Iz; rewrite (H y Ay Iy), (H z Az Iz); reflexivity).
    assert (R : forall z, A z -> In z (map fst exenv) -> exnom z = false /\ z = "X") by (intros z Az Iz; rewrite (H z Az Iz); auto).
    cbn [prepared sx p1 p2 p3 ux dx ax y1 y2 All fst]. repeat split; try exact L; try reflexivity; try (now apply R); try (left; split; [now apply R|discriminate]); try (left; now apply R).
    intros y [<-|[<-|[]]]; reflexivity. }
  split; [exact gev_tlt|]. split; [exact gev_yina|]. split; [exact tlt_compares|]. split; [exact yina_compares|].
  split; [apply both_defined; now left|]. split; [apply both_defined; now right|]. vm_compute. reflexivity.
Qed.
Example C38_function_answers_everywhere_case : typed exnom exenvof sx /\ forall k t v, tlt = EBasic k t v \/ yina = EBasic k t v -> everywhere (N:=QS) t.
Proof. split; [exact sx_typed|]. intros k t v [E|E]; injection E as <- <- <-; exact Logic.I. Qed.
