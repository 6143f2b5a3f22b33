(** Cases for PropOrderAsk.v: the mixture mx of DensEx.v and the event
    (X >= 2 and Y << {'a'}) or X < 1 in two processes that differ in everything allowed. *)
From Coq Require Import List Bool String Reals Lra Lia ZArith QArith Qreals Permutation.
From Verif Require Import Base Num Sets SetSpec Poly Trans TransSpec Logs Spe SpeSpec MemoProofs LogprobProofs LogprobTop SpeEq
  CondTypes CondProofs CondTop PropSpe SetBuilt Uniform Instances SpeEx ConsEx Same ProgEx DensEx SpeOps PropCons MISpec PropMI MIEx Prog ProgSpec ProgProofs PropProg CompileSpec PropCompile ReturnEx CompileEx TotalSpec TotalProofs PropTotal PropCondTotal TotalEx CondTotalEx OrderEx OrderPolyEx PropOrderAsk.
Import ListNotations.
Local Open Scope R_scope.
Local Open Scope string_scope.

Definition so_back : strorder := Strorder (@rev string) (fun l => Permutation_rev l).
(** other addresses and hashes *)
Definition ids_up (s c : spQ) : nat := (7 + 3 * ids_of s c)%nat.
Definition hash_down (s : spQ) : Z := (- exhash s)%Z.
Lemma ids_up_distinct : forall s, distinct (ids_up s) s.
Proof. intros s a b Ha Hb H. apply (ids_distinct s a b Ha Hb). unfold ids_up in H. lia. Qed.

Example C61_answers_case : wf_spe elaw mx /\ distinct (ids_of mx) mx /\ distinct (ids_up mx) mx /\ open_leaves exnom any true mx /\ direct exnom any any tev /\
  (forall x, In x (symbols tev) -> own mx x) /\ leaf_form mx tev /\
  fresh (logprob ioQ po 9 (ids_of mx) mx tev) = Ok (7#8)%Q /\ exists p, fresh (logprob io_swap po_sextic 5 (ids_up mx) mx tev) = Ok p /\ @toP LQ p = @toP LQ (7#8)%Q.
Proof.
  destruct C54_answers_case as (W & Di & O & De & V & L & E). repeat (split; [first [assumption|apply ids_up_distinct]|]).
  destruct (C61_answers_partial elaw exnom ioQ io_swap po po_sextic (ids_of mx) (ids_up mx) exhash hash_down any any 9 5 mx tev ltac:(lia) ltac:(lia) W Di (ids_up_distinct mx) O De V L) as (p & p' & E1 & E2 & P).
  exists p'. split; auto. rewrite E in E1. injection E1 as <-. now symmetry.
Qed.
Example C61_conditions_case : wf_spe elaw mx /\ typed exnom exenvof mx /\ distinct (ids_up mx) mx /\ 0 < prob elaw mx tev /\
  exists t t', fresh (condition ioQ so_id po 9 (ids_of mx) exhash mx tev) = Ok t /\ fresh (condition io_swap so_back po_sextic 9 (ids_up mx) hash_down mx tev) = Ok t' /\ same_law elaw t t'.
Proof.
  destruct C25_positive_case as (W & T & Di & O & St & Ev & De & V & L & P & t & E). repeat (split; [first [assumption|apply ids_up_distinct]|]).
  assert (R : isok (fresh (condition io_swap so_back po_sextic 9 (ids_up mx) hash_down mx tev)) = true) by (vm_compute; reflexivity).
  apply isok_ex in R. destruct R as (t' & E'). exists t, t'. split; auto. split; auto.
  exact (C62_same_law elaw exnom exenvof ioQ io_swap so_id so_back po po_sextic (ids_of mx) (ids_up mx) exhash hash_down 9 9 mx tev t t' elaw_eq W T Di (ids_up_distinct mx) (direct_conditionable elaw exnom whole none mx tev W De V) E E').
Qed.
Example C62_same_answer_case : atoms_ok exnom mx /\ askable elaw exnom mx tev /\
  exists p p', fresh (logprob ioQ po 9 (ids_of mx) mx tev) = Ok p /\ fresh (logprob io_swap po_sextic 5 (ids_up mx) mx tev) = Ok p' /\ @toP LQ p = @toP LQ p'.
Proof.
  destruct C61_answers_case as (W & Di & Di' & O & De & V & L & E & p & E' & P).
  split; [exact (open_atoms exnom any mx true O)|]. split; [exact (direct_askable elaw exnom any any mx tev W De)|].
  exists (7#8)%Q, p. auto.
Qed.
(** the expression sx of SpeEx.v and the events of MIEx.v *)
Example C62_same_information_case : wf_spe elaw sx /\ atoms_ok exnom sx /\ distinct (ids_up sx) sx /\ decided elaw exnom sx exev /\ decided elaw exnom sx exev2 /\
  exists r, mutual_information ioQ po 9 exident sx exev exev2 = Ok r /\ mutual_information io_swap po 9 (ids_up sx) sx exev exev2 = Ok r.
Proof.
  destruct C38_case as (W & A & Ds & D1 & D2 & (r & H) & _). repeat (split; [first [assumption|apply ids_up_distinct]|]). exists r. split; [exact H|].
  assert (R : exists r', mutual_information io_swap po 9 (ids_up sx) sx exev exev2 = Ok r') by (apply okb_ok; vm_compute; reflexivity).
  destruct R as (r' & H'). rewrite H'. f_equal. symmetry.
  exact (C62_same_information elaw exnom ioQ io_swap po po exident (ids_up sx) 9 9 sx exev exev2 r r' W A Ds (ids_up_distinct sx) D1 D2 H H').
Qed.
(** the program of C55_compiles_case *)
Example C61_programs_case : compiles elaw exnom dZ cutsX prog_s (fun _ => False) start None V6 None /\ two (base dZ V6) /\
  exists rounds, forall fuel fuel', (rounds <= fuel)%nat -> (rounds <= fuel')%nat -> exists s s',
    interpret ioQ so_id po fuel exhash ids_of true prog_s None = Ok (Some s) /\ interpret io_swap so_back po_sextic fuel' hash_down ids_up true prog_s None = Ok (Some s') /\ same_law elaw s s'.
Proof.
  destruct C55_compiles_case as (C & T & _). split; auto. split; auto.
  destruct (C55_compiles_partial ioQ so_id po elaw elaw_eq exhash ids_of true exnom dZ ids_distinct (or_introl eq_refl) cutsX prog_s V6 None C) as (k1 & K1).
  destruct (C55_compiles_partial io_swap so_back po_sextic elaw elaw_eq hash_down ids_up true exnom dZ ids_up_distinct (or_introl eq_refl) cutsX prog_s V6 None C) as (k2 & K2).
  destruct (C61_programs_partial elaw exnom ioQ io_swap so_id so_back po po_sextic exhash hash_down ids_of ids_up true true elaw_eq ids_distinct ids_up_distinct (or_introl eq_refl) (or_introl eq_refl) dZ cutsX prog_s V6 None C T) as (k & K).
  exists (k + k1 + k2)%nat. intros fuel fuel' F F'. destruct (K fuel fuel' ltac:(lia) ltac:(lia)) as (s & s' & E & E' & _). exists s, s'. split; auto. split; auto.
  destruct (K1 fuel ltac:(lia)) as (o & Eo & Ho). rewrite E in Eo. injection Eo as <-. destruct (K2 fuel' ltac:(lia)) as (o' & Eo' & Ho'). rewrite E' in Eo'. injection Eo' as <-.
  destruct Ho as (_ & _ & M), Ho' as (_ & _ & M'). intros f Sf w. now rewrite M, M'.
Qed.
(** the program of C35_program_case *)
Example C62_same_program_case : fits elaw exnom bs_prog (fun _ => False) start vars_prog /\
  exists s s', interpret ioQ so_id po 9 exhash ids_of true bs_prog None = Ok (Some s) /\ interpret io_swap so_back po_sextic 9 hash_down ids_up true bs_prog None = Ok (Some s') /\ same_law elaw s s'.
Proof.
  destruct C35_program_case as (F & _). split; auto.
  assert (K : okopt (interpret ioQ so_id po 9 exhash ids_of true bs_prog None) = true) by (vm_compute; reflexivity).
  assert (K' : okopt (interpret io_swap so_back po_sextic 9 hash_down ids_up true bs_prog None) = true) by (vm_compute; reflexivity).
  apply okopt_ok in K, K'. destruct K as (s & E), K' as (s' & E'). exists s, s'. split; auto. split; auto.
  exact (proj2 (C62_same_program elaw exnom ioQ io_swap so_id so_back po po_sextic exhash hash_down ids_of ids_up true true elaw_eq ids_distinct ids_up_distinct (or_introl eq_refl) (or_introl eq_refl) 9 9 bs_prog vars_prog s s' F E E')).
Qed.
Definition all_order_ask_properties := (@C61_answers_partial, @C61_conditions_partial, @C61_programs_partial, @C62_same_answer, @C62_same_law, @C62_same_information, @C62_same_program).
Print Assumptions all_order_ask_properties.
