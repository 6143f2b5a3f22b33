(** A concrete case for C38: the expression and events of SpeEx.v. *)
From Coq Require Import List Bool String Reals Lra Lia ZArith QArith Qreals.
From Verif Require Import Base Num Sets SetSpec SetIv SetProofs SetOr SetOps SetAlg SetBuilt
  Poly Trans TransSpec TransFacts PolyProofs InvProofs InvMain EvProofs ArithProofs
  Dnf DnfSpec DnfProofs DnfUnion Logs Spe SpeSpec SpeFacts SpeRect LeafProofs LeafEvents LeafCond SpeCons LeafGiven MemoProofs NormSorts LogprobProofs LogprobTop SpeEq SimplifyProofs CondTypes CondProofs CondTop PropSpe
  SpeOps Prog ProgSpec ProgEvents MISpec PropMI Instances Uniform SpeEx.
Import ListNotations.
Local Open Scope R_scope.
Local Open Scope string_scope.

Lemma exev2_defined : surely elaw sx (fun w => teval exev2 w <> None).
Proof.
  intros w. apply (law_null_sub (den_kernel elaw sx sx_wf w) (fun w => ~ (is_num (w "X") /\ is_num (w "Z") /\ exists z, w "Y" = FStr z))); [apply sx_sorted|].
  intros a H K. apply H. destruct K as ((x & Ex) & (z & Ez) & (y & Ey)). unfold exev2. cbn [teval zlt3 xge yina X map]. rewrite Ex, Ez, Ey. apply kor_def.
  intros o [<-|[<-|[]]]; try apply truth_def; apply kand_def; intros o [<-|[<-|[]]]; apply truth_def.
Qed.
Lemma decided_of : forall e : tr QS, gev e -> plain e -> event_sorts exnom e -> Forall nonvoid (lits e) -> surely elaw sx (fun w => teval e w <> None) -> decided elaw exnom sx e.
Proof.
  intros e G P So Nv Df. split; auto. split; auto. split; auto. apply surely_and; auto; [exact sx_wf|]. apply surely_all; [exact sx_wf|]. intros w. now apply plain_regular.
Qed.

Definition okb {A} (r : res A) : bool := match r with Ok _ => true | Raise _ => false end.
Lemma okb_ok : forall A (r : res A), okb r = true -> exists a, r = Ok a.
Proof. intros A [a|e] H; [eauto|discriminate]. Qed.
Example C38_case : wf_spe elaw sx /\ atoms_ok exnom sx /\ distinct exident sx /\ decided elaw exnom sx exev /\ decided elaw exnom sx exev2 /\
  (exists r, mutual_information ioQ po 9 exident sx exev exev2 = Ok r) /\ exists r, mutual_information ioQ po 9 exident sx exev2 exev = Ok r.
Proof.
  split; [exact sx_wf|]. split; [exact sx_atoms|]. split; [exact sx_distinct|].
  split; [apply decided_of; [exact gev_exev|apply plain_exev|exact sorts_exev|repeat constructor; discriminate|exact exev_defined]|].
  split; [apply decided_of; [exact gev_exev2|apply plain_exev|exact sorts_exev2|repeat constructor; discriminate|exact exev2_defined]|].
  split; apply okb_ok; vm_compute; reflexivity.
Qed.
(** the two events know something about each other *)
Corollary C38_case_positive : exists r, mutual_information ioQ po 9 exident sx exev exev2 = Ok r /\ 0 < r.
Proof.
  destruct C38_case as (W & A & Ds & D1 & D2 & (r & H) & _). exists r. split; auto.
  pose proof (C38_nonneg ioQ po 9 elaw exident exnom sx exev exev2 r W A Ds D1 D2 H) as K. destruct K as [K|K]; auto. symmetry in K. exfalso.
  apply (C38_independent ioQ po 9 elaw exident exnom sx exev exev2 r W A Ds D1 D2 H) in K. unfold independent in K.
  destruct C23_union_case as (A1 & A2 & _ & A4 & _ & E & H1 & H2 & _ & H4).
  pose proof (C22_logprob ioQ po 9 elaw exident exnom sx exev _ W A Ds A1 H1) as P1. pose proof (C22_logprob ioQ po 9 elaw exident exnom sx exev2 _ W A Ds A2 H2) as P2. pose proof (C22_logprob ioQ po 9 elaw exident exnom sx bothev _ W A Ds A4 H4) as P3.
  unfold chance in K. change (prob elaw sx exev) with (Pr elaw sx (holds exev)) in P1. change (prob elaw sx exev2) with (Pr elaw sx (holds exev2)) in P2.
  assert (P4 : prob elaw sx bothev = Pr elaw sx (fun w => holds exev w /\ holds exev2 w)).
  { apply (law_ext (I:=fun g => den elaw sx g w0)). intros w. apply ind_eq. destruct (ev_and_ok ioQ exev exev2 bothev gev_exev gev_exev2 E) as (_ & Q). apply Q. }
  rewrite <- P4, <- P1, <- P2, <- P3 in K.
  change (@toP LQ (1#2)%Q) with (lq_P (1#2)) in K. change (@toP LQ (9#16)%Q) with (lq_P (9#16)) in K. change (@toP LQ (1#4)%Q) with (lq_P (1#4)) in K. rewrite !lq_P_pos in K by discriminate. unfold Q2R in K; cbn in K. lra.
Qed.
