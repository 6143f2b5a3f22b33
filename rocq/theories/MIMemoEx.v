(** Cases for PropMIMemo.v: the events of MITotalEx.v after the five queries of DensEx.v. *)
From Coq Require Import List Bool String Reals Lra Lia ZArith QArith Qreals.
From Verif Require Import Base Num Sets SetSpec SetIv SetProofs SetOr SetOps SetAlg SetBuilt
  Poly Trans TransSpec TransFacts PolyProofs InvProofs InvMain EvProofs ArithProofs
  Dnf DnfSpec DnfProofs DnfUnion PropDnf Logs Spe SpeSpec SpeFacts SpeRect LeafProofs LeafEvents LeafCond SpeCons LeafGiven MemoProofs NormSorts LogprobProofs LogprobTop SpeEq SimplifyProofs CondTypes CondProofs CondTop PropSpe
  SpeOps Prog ProgSpec ProgEvents MISpec PropMI TotalSpec TotalSets TotalSolve TotalProofs PropTotal PropMITotal Instances Uniform SpeEx MIEx
  OpsProofs BuildProofs TransformProofs PropCons ConsEx Same ProgEx DensSpec DensProofs ConstrainProofs DensLimit DensPoint PropDens DensEx TotalEx CondTotalEx MITotalEx MIMemo PropMIMemo.
Import ListNotations.
Local Open Scope R_scope.
Local Open Scope string_scope.


Notation after_hist := (table ioQ so_id po 9 (ids_of mx) exhash hist).
Notation mi_mx := (mutual_information_memo ioQ po 9 (ids_of mx) mx tev orv).
Lemma tev_decided : decided elaw exnom mx tev.
Proof. destruct C38_answers_case as (W & T & _ & _ & _ & D1 & _ & N1 & _ & V1 & _). exact (direct_decided elaw exnom whole exenvof mx tev W T D1 N1 V1). Qed.
Lemma orv_decided : decided elaw exnom mx orv.
Proof. destruct C38_answers_case as (W & T & _ & _ & _ & _ & D2 & _ & N2 & _ & V2 & _). exact (direct_decided elaw exnom whole exenvof mx orv W T D2 N2 V2). Qed.
Example C30_information_case : Forall (fine elaw exnom exenvof (within mx)) hist /\ within mx mx /\ decided elaw exnom mx tev /\ decided elaw exnom mx orv /\
  (exists r, fst (mi_mx after_hist) = Ok r /\ r = information elaw mx (holds tev) (holds orv)) /\
  exists p, fst (logprob ioQ po 9 (ids_of mx) mx tev (snd (mi_mx after_hist))) = Ok p /\ @toP LQ p = prob elaw mx tev.
Proof.
  pose proof (within_closed (ids_of mx) mx (ids_distinct mx)) as Uc. pose proof (typed_atoms exnom exenvof mx mx_typed) as A.
  split; [exact hist_fine|]. split; [exact (within_self mx)|]. split; [exact tev_decided|]. split; [exact orv_decided|]. split.
  - assert (K : okb (fst (mi_mx after_hist)) = true) by (vm_compute; reflexivity). apply okb_ok in K. destruct K as (r & E). exists r. split; [exact E|].
    exact (C30_information ioQ so_id po 9 elaw (ids_of mx) exnom elaw_eq edpdf edpdf_ok exhash exenvof (within mx) Uc hist mx tev orv r hist_fine (within_self mx) mx_wf A tev_decided orv_decided E).
  - assert (K : okb (fst (logprob ioQ po 9 (ids_of mx) mx tev (snd (mi_mx after_hist)))) = true) by (vm_compute; reflexivity). apply okb_ok in K. destruct K as (p & E). exists p. split; [exact E|].
    apply (C30_information_logprob ioQ so_id po 9 elaw (ids_of mx) exnom elaw_eq edpdf edpdf_ok exhash exenvof (within mx) Uc hist mx tev orv mx tev p hist_fine (within_self mx) mx_wf A tev_decided orv_decided (within_self mx) mx_wf A); [|exact E].
    exact (direct_askable elaw exnom whole none mx tev mx_wf direct_tevz).
Qed.
(** the table has entries before and after *)
Example C30_information_table : (List.length (m_logprob after_hist) < List.length (m_logprob (snd (mi_mx after_hist))))%nat.
Proof. apply Nat.ltb_lt. vm_compute. reflexivity. Qed.
Example C30_information_condition_case : conditionable elaw exnom mx yina /\
  exists t, fst (condition ioQ so_id po 9 (ids_of mx) exhash mx yina (snd (mi_mx after_hist))) = Ok t /\ given elaw mx (holds yina) t.
Proof.
  pose proof (within_closed (ids_of mx) mx (ids_distinct mx)) as Uc. pose proof (typed_atoms exnom exenvof mx mx_typed) as A.
  split; [exact mx_cond|]. assert (K : okb (fst (condition ioQ so_id po 9 (ids_of mx) exhash mx yina (snd (mi_mx after_hist)))) = true) by (vm_compute; reflexivity).
  apply okb_ok in K. destruct K as (t & E). exists t. split; [exact E|].
  apply (C30_information_condition ioQ so_id po 9 elaw (ids_of mx) exnom elaw_eq edpdf edpdf_ok exhash exenvof (within mx) Uc hist mx tev orv mx yina t hist_fine (within_self mx) mx_wf A tev_decided orv_decided (within_self mx) mx_wf mx_typed mx_cond E).
Qed.
Definition all_mi_memo_properties := (@C30_information, @C30_information_logprob, @C30_information_condition).
Print Assumptions all_mi_memo_properties.
