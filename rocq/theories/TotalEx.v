(** Cases and refutations for C54. *)
From Coq Require Import List Bool String Reals Lra Lia ZArith QArith Qabs Qreals.
From Verif Require Import Base Num Sets SetSpec SetIv SetProofs SetOr SetOps SetAlg SetBuilt
  Poly Trans TransSpec TransFacts PolyProofs InvProofs InvMain EvProofs ArithProofs PolyEx
  Dnf DnfSpec DnfProofs DnfUnion Logs Spe SpeSpec SpeFacts SpeRect LeafProofs LeafEvents LeafCond SpeCons LeafGiven MemoProofs PropTrans NormSorts LogprobProofs LogprobTop SpeEq SimplifyProofs CondTypes CondProofs CondTop PropSpe Uniform Instances SpeEx
  SpeOps OpsProofs BuildProofs TransformProofs PropCons ConsEx Same ProgEx DensSpec DensProofs ConstrainProofs DensLimit DensPoint PropDens DensEx TotalSpec PropTotal.
Import ListNotations.
Local Open Scope R_scope.
Local Open Scope string_scope.

(** no condition on the cuts *)
Definition any : string -> R -> Prop := fun _ _ => True.
(** (X >= 2 and Y << {'a'}) or X < 1, asked of a mixture of products whose X has the supports
    [0,1] and [0,3]: 1/2 * 1 + 1/2 * (1/2 * 1/2 + 1/2) *)
Definition tev : tr QS := EOr [EAnd [xge; yina]; xlt].
Lemma gev_tev : gev tev.
Proof.
  apply (EventOr_ok [EAnd [xge; yina]; xlt]); [|reflexivity]. constructor; [|constructor; [exact gev_xlt|constructor]].
  apply (EventAnd_ok [xge; yina]); [|reflexivity]. auto using gev_xge, gev_yina.
Qed.
Lemma cmp_x : forall (i : interval QS), hasinf (PB (BInt i)) = false -> comparison exnom any any (EBasic KInt X (PB (BInt i))).
Proof. intros i H. exists KInt, "X", (PB (BInt i)). split; [reflexivity|]. split; [discriminate|]. split; [exact Logic.I|]. split; [exact H|]. split; [intros j _ r _; exact Logic.I|]. intros vs y r _ _ _. left. exact Logic.I. Qed.
Lemma cmp_ya : comparison exnom any any yina.
Proof. exists KNom, "Y", (fn ["a"]). split; [reflexivity|]. right. exact Logic.I. Qed.
Lemma direct_tev : direct exnom any any tev.
Proof. split; [exact gev_tev|]. repeat (apply Forall_cons || apply Forall_nil); try exact cmp_ya; now apply cmp_x. Qed.
Lemma mx_open : open_leaves exnom any true mx.
Proof. cbn. intuition discriminate. Qed.
Example C54_answers_case : wf_spe elaw mx /\ distinct (ids_of mx) mx /\ open_leaves exnom any true mx /\ direct exnom any any tev /\ (forall x, In x (symbols tev) -> own mx x) /\ leaf_form mx tev /\
  fresh (logprob ioQ po 9 (ids_of mx) mx tev) = Ok (7#8)%Q.
Proof.
  split; [exact mx_wf|]. split; [apply ids_distinct|]. split; [exact mx_open|]. split; [exact direct_tev|]. split; [cbn; intuition|]. split; [discriminate|reflexivity].
Qed.
(** with a derived variable: sx of SpeEx.v has X, Y and Z = 2*X + 1, and is asked about X and Y *)
Lemma sx_open : open_leaves exnom any true sx.
Proof. cbn. intuition (try discriminate); subst; reflexivity. Qed.
Lemma sx_own : forall x, In x (symbols tev) -> own sx x.
Proof. cbn. intuition. Qed.
Example C54_derived_case : wf_spe elaw sx /\ distinct (ids_of sx) sx /\ open_leaves exnom any true sx /\ direct exnom any any tev /\ (forall x, In x (symbols tev) -> own sx x) /\ leaf_form sx tev /\
  vars sx "Z" /\ ~ own sx "Z" /\ fresh (logprob ioQ po 9 (ids_of sx) sx tev) = Ok (3#4)%Q.
Proof.
  split; [exact sx_wf|]. split; [apply ids_distinct|]. split; [exact sx_open|]. split; [exact direct_tev|]. split; [exact sx_own|]. split; [discriminate|]. split; [cbn; tauto|]. split; [cbn; intuition discriminate|reflexivity].
Qed.
(** a disjunction asked of a sum of leaves: the support (0,2) is open *)
Definition i02 : interval QS := mkIv (qn 0) (qn 2) true true.
Definition uo : spQ := leaf "X" false DUnif i02.
Definition so2 : spQ := SumSPE (S:=LQ) [(uo, 1#2); (am1, 1#2)]%Q.
Lemma uo_wf : wf_leaf elaw uo.
Proof. apply base_real_wf; [now apply iv_wf|discriminate|exact unif_dist|]. apply unif_supp. intros r H. apply in_iv_num. cbn. unfold Q2R; cbn. lra. Qed.
Lemma so2_wf : wf_spe elaw so2.
Proof. apply two_wf; [exact uo_wf|apply atm_wf|cbn; tauto|reflexivity|reflexivity|unfold Q2R; cbn; lra]. Qed.
Definition xlow : tr QS := EBasic KInt X (iv NInf (qn 0) true false).
Definition xhigh : tr QS := EBasic KInt X (iv (qn 1) PInf false true).
Definition outer : tr QS := EOr [xlow; xhigh].
Lemma direct_outer : direct exnom any any outer.
Proof.
  split.
  - apply (EventOr_ok [xlow; xhigh]); [|reflexivity]. constructor; [apply (good_int X NInf (qn 0) true false); exact Logic.I || reflexivity|]. constructor; [apply (good_int X (qn 1) PInf false true); exact Logic.I || reflexivity|constructor].
  - repeat (apply Forall_cons || apply Forall_nil); now apply cmp_x.
Qed.
Example C54_leaves_case : wf_spe elaw so2 /\ distinct (ids_of so2) so2 /\ open_leaves exnom any true so2 /\ direct exnom any any outer /\ (forall x, In x (symbols outer) -> own so2 x) /\ leaf_form so2 outer /\
  fresh (logprob ioQ po 9 (ids_of so2) so2 outer) = Ok (1#2)%Q.
Proof.
  split; [exact so2_wf|]. split; [apply ids_distinct|]. split; [split; [split; [reflexivity|]; intros _; split; left; reflexivity|]; split; [split; [reflexivity|]; intros y [<-|[]]; reflexivity|exact Logic.I]|]. split; [exact direct_outer|]. split; [cbn; intuition|]. split; [discriminate|reflexivity].
Qed.
(** a disjunction asked of the uniform distribution on [0,1], whose support is closed: the cuts
    1/4 and 3/4 are inside *)
Definition inner : string -> R -> Prop := fun _ r => 0 < r < 1.
Definition low4 : tr QS := EBasic KInt X (iv NInf (Fin (1#4)%Q) true false).
Definition high4 : tr QS := EBasic KInt X (iv (Fin (3#4)%Q) PInf false true).
Definition tails : tr QS := EOr [low4; high4].
Lemma direct_tails : direct exnom inner any tails.
Proof.
  split.
  - apply (EventOr_ok [low4; high4]); [|reflexivity]. constructor; [apply (good_int X NInf (Fin (1#4)%Q) true false); exact Logic.I || reflexivity|]. constructor; [apply (good_int X (Fin (3#4)%Q) PInf false true); exact Logic.I || reflexivity|constructor].
  - repeat (apply Forall_cons || apply Forall_nil).
    + exists KInt, "X", (iv NInf (Fin (1#4)%Q) true false). split; [reflexivity|]. split; [discriminate|]. split; [exact Logic.I|]. split; [reflexivity|]. split; [|intros vs y r [E|[]]; discriminate]. intros j [E|[]]. injection E as <-. intros r [E|E]; [discriminate|]. injection E as <-. unfold inner. cbn. unfold Q2R; cbn. lra.
    + exists KInt, "X", (iv (Fin (3#4)%Q) PInf false true). split; [reflexivity|]. split; [discriminate|]. split; [exact Logic.I|]. split; [reflexivity|]. split; [|intros vs y r [E|[]]; discriminate]. intros j [E|[]]. injection E as <-. intros r [E|E]; [|discriminate]. injection E as <-. unfold inner. cbn. unfold Q2R; cbn. lra.
Qed.
Lemma clear01 : clear_support inner "X" (mkIv (N:=QS) (qn 0) (qn 1) false false).
Proof. split; right; intros r E; injection E as <-; unfold inner; cbn; unfold Q2R; cbn; lra. Qed.
Example C54_cuts_case : wf_spe elaw (lu "X") /\ distinct (ids_of (lu "X")) (lu "X") /\ open_leaves exnom inner true (lu "X") /\ direct exnom inner any tails /\ (forall x, In x (symbols tails) -> own (lu "X") x) /\ leaf_form (lu "X") tails /\
  fresh (logprob ioQ po 9 (ids_of (lu "X")) (lu "X") tails) = Ok (1#2)%Q.
Proof.
  split; [exact (lu_wf "X")|]. split; [apply ids_distinct|]. split; [split; [reflexivity|]; intros _; exact clear01|]. split; [exact direct_tails|]. split; [cbn; intuition|]. split; [|reflexivity].
  intros _. right. exists [low4; high4]. split; [reflexivity|]. repeat constructor.
Qed.
(** The question about both ends, X <= 0 or X >= 1, of the uniform distribution on [0,1] is an AssertionError: the meet of
    the support with the solution is the two points 0 and 1, which src/sets.py:279-305, 322-333 expects
    to come as one set.  The ends of the support are cuts, so C54_answers_partial does not apply. *)
Theorem C54_closed_support_refuted : exists (s : spQ) e, wf_spe elaw s /\ distinct (ids_of s) s /\ open_leaves exnom any false s /\ direct exnom any any e /\ (forall x, In x (symbols e) -> own s x) /\ leaf_form s e /\
  fresh (logprob ioQ po 9 (ids_of s) s e) = Raise AssertionError.
Proof.
  exists (lu "X"), outer. split; [exact (lu_wf "X")|]. split; [apply ids_distinct|]. split; [cbn; intuition discriminate|]. split; [exact direct_outer|]. split; [cbn; intuition|]. split; [|reflexivity].
  intros _. right. exists [xlow; xhigh]. split; [reflexivity|]. repeat constructor.
Qed.
(** a conjunction asked of leaves with closed supports *)
Definition both_ev : tr QS := EAnd [xhigh; xge].
Lemma direct_both : direct exnom any any both_ev.
Proof.
  split.
  - apply (EventAnd_ok [xhigh; xge]); [|reflexivity]. constructor; [apply (good_int X (qn 1) PInf false true); exact Logic.I || reflexivity|]. constructor; [exact gev_xge|constructor].
  - repeat (apply Forall_cons || apply Forall_nil); now apply cmp_x.
Qed.
Definition slu : spQ := SumSPE (S:=LQ) [(lu "X", 1#2); (ld "X", 1#2)]%Q.
Lemma slu_wf : wf_spe elaw slu.
Proof. apply two_wf; [exact (lu_wf "X")|exact (ld_wf "X")|cbn; tauto|reflexivity|reflexivity|unfold Q2R; cbn; lra]. Qed.
Example C54_conjunctions_case : wf_spe elaw slu /\ distinct (ids_of slu) slu /\ open_leaves exnom any false slu /\ direct exnom any any both_ev /\ conjunctive both_ev /\ (forall x, In x (symbols both_ev) -> own slu x) /\ leaf_form slu both_ev /\
  fresh (logprob ioQ po 9 (ids_of slu) slu both_ev) = Ok (1#4)%Q.
Proof.
  split; [exact slu_wf|]. split; [apply ids_distinct|]. split; [cbn; intuition discriminate|]. split; [exact direct_both|]. split; [cbn; auto|]. split; [cbn; intuition|]. split; [discriminate|reflexivity].
Qed.
(** after the queries of DensEx.v *)
Example C54_after_case : closed (ids_of mx) (within mx) /\ Forall (PropSpe.fine elaw exnom exenvof (within mx)) [PropSpe.QLogprob mx yina; PropSpe.QCondition mx yina] /\ within mx mx.
Proof.
  pose proof (conditionable_askable elaw exnom mx yina mx_cond) as Q. pose proof (typed_atoms exnom exenvof mx mx_typed) as A.
  split; [apply within_closed, ids_distinct|]. split; [|constructor]. repeat (apply Forall_cons || apply Forall_nil); [exact (conj (within_self mx) (conj mx_wf (conj A Q)))|exact (conj (within_self mx) (conj mx_wf (conj mx_typed mx_cond)))].
Qed.
Example C54_normalize_case : direct exnom any any tev /\ exists d, dnf_normalize ioQ po 9 tev = Ok (Some d).
Proof. split; [exact direct_tev|]. eexists. reflexivity. Qed.

Definition all_total_properties := (@C54_normalize, @C54_answers_partial, @C54_conjunctions_partial, @C54_after_partial, @C54_closed_support_refuted).
Print Assumptions all_total_properties.
