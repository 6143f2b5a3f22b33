(** Cases and a refutation for C60. *)
From Coq Require Import List Bool String Reals Lra Lia ZArith QArith Qabs Qreals.
From Verif Require Import Base Num Sets SetSpec SetIv SetProofs SetOr SetOps SetAlg SetBuilt
  Poly Trans TransSpec TransFacts PolyProofs InvProofs InvMain EvProofs ArithProofs PolyEx
  Dnf DnfSpec DnfProofs DnfUnion Logs Spe SpeSpec SpeFacts SpeRect LeafProofs LeafEvents LeafCond SpeCons LeafGiven MemoProofs PropTrans NormSorts LogprobProofs LogprobTop SpeEq SimplifyProofs CondTypes CondProofs CondTop PropSpe Uniform Instances SpeEx
  SpeOps OpsProofs BuildProofs TransformProofs PropCons ConsEx Same ProgEx DensSpec DensProofs ConstrainProofs DensLimit DensPoint PropDens DensEx TotalSpec TotalSets PropTotal TotalUnion TotalGrid PropCondTotal TotalEx CondTotalEx
  CondShape CompileSpec SessionSpec PropSession.
Import ListNotations.
Local Open Scope R_scope.
Local Open Scope string_scope.

Notation exstep := (fun s e => fresh (condition ioQ so_id po 9 (ids_of s) exhash s e)).
Notation exask s e := (fresh (logprob ioQ po 9 (ids_of s) s e)).
Definition exderived (x : string) : bool := String.eqb x "Z".
(** sx of SpeEx.v samples X and Y and defines Z.  Observed, in this order: X < 1 or Y << {'a'}; then
    (X >= 2 and Y << {'a'}) or X < 1.  Asked: Y << {'a'}. *)
Lemma sx_tidy : tidy (D:=DQ) exnom exderived whole True sx.
Proof.
  assert (Env : tidy_env exnom exderived "X" exenv).
  { split; [reflexivity|]. split; [reflexivity|]. intros y [<-|[<-|[]]]; split; try reflexivity; [now left|now right]. }
  repeat match goal with |- tidy _ _ _ _ _ => unfold tidy | |- every _ _ => cbn [sx p1 p2 p3 ux dx ax y1 y2 every All fst] | |- _ /\ _ => split end; cbn [tidy_part]; auto; try exact Logic.I; try (split; [exact Env|]); try exact Env; try (split; reflexivity).
  all: try (intros E r H; exact H); try (repeat constructor).
Qed.
Definition twoev : list (tr QS) := [orv; tev].
Lemma sx_two : two (base exderived (vars sx)).
Proof. exists "X", "Y". split; [split; [apply sx_vars; auto|reflexivity]|]. split; [split; [apply sx_vars; auto|reflexivity]|discriminate]. Qed.
Lemma twoev_ok : Forall (observation exnom exderived whole sx) [orv; tev; yina].
Proof.
  assert (K : forall e, direct exnom whole none e -> (forall x, In x (symbols e) -> x = "X" \/ x = "Y") -> observation exnom exderived whole sx e).
  { intros e De Sy. split; auto. split; [|left; exact sx_two]. intros x Hx. destruct (Sy x Hx) as [-> | ->]; split; try reflexivity; apply sx_vars; auto. }
  constructor; [apply K; [exact direct_orv|cbn; intuition]|]. constructor; [apply K; [exact direct_tevz|cbn; intuition]|]. constructor; [|constructor]. apply K; [|cbn; intuition]. split; [exact gev_yina|]. constructor; [apply cmp_yz|constructor].
Qed.
Definition okt {A} (r : res A) : bool := match r with Ok _ => true | Raise _ => false end.
Definition askq (r : res spQ) (q : tr QS) (p : Q) : bool := match r with Ok t => match exask t q with Ok p' => Qeq_bool p' p | _ => false end | _ => false end.
Example C60_case : wf_spe elaw sx /\ typed exnom exenvof sx /\ tidy exnom exderived whole True sx /\ Forall (observation exnom exderived whole sx) twoev /\ observation exnom exderived whole sx yina /\
  askq (observe exstep twoev sx) yina (5#12) = true /\ 0 < Pr elaw sx (all_hold twoev).
Proof.
  split; [exact sx_wf|]. split; [exact sx_typed|]. split; [exact sx_tidy|]. pose proof twoev_ok as F. inversion F as [|? ? F1 F']; subst. inversion F' as [|? ? F2 F'']; subst. inversion F'' as [|? ? F3 _]; subst.
  split; [constructor; [exact F1|constructor; [exact F2|constructor]]|]. split; [exact F3|]. split; [vm_compute; reflexivity|].
  assert (K : okt (observe exstep twoev sx) = true) by (vm_compute; reflexivity). destruct (observe exstep twoev sx) as [t|x] eqn:E; [|discriminate K].
  destruct (C60_steps ioQ so_id po elaw elaw_eq ids_of exhash exnom exenvof ids_distinct 9 twoev sx t sx_wf sx_typed) as (_ & _ & P & _); auto.
  assert (C : forall e, observation exnom exderived whole sx e -> conditionable elaw exnom sx e /\ univariate e).
  { intros e Oe. split; [exact (observation_conditionable elaw exnom exderived whole sx e sx_wf sx_tidy Oe)|exact (observation_univariate exnom exderived whole sx e Oe)]. }
  unfold twoev. apply Forall_cons; [exact (C _ F1)|]. apply Forall_cons; [exact (C _ F2)|apply Forall_nil].
Qed.
(** in the other order, and with a repetition *)
Example C60_order_case : (forall e, In e twoev <-> In e [tev; orv; tev]) /\ askq (observe exstep twoev sx) yina (5#12) = true /\ askq (observe exstep [tev; orv; tev] sx) yina (5#12) = true.
Proof. split; [cbn; tauto|]. split; vm_compute; reflexivity. Qed.
(** With one sampled variable, an observation can make a question impossible.  X is uniform on [0,1];
    X <= 1/4 or X >= 3/4 is answered; after 1/4 <= X <= 3/4 is observed, the same question raises,
    because the support is now closed and both ends are asked about (C54_closed_support_refuted). *)
Definition mid : tr QS := EBasic KInt X (iv (Fin (1#4)%Q) (Fin (3#4)%Q) false false).
Definition raisesq (r : res spQ) (q : tr QS) : bool := match r with Ok t => match exask t q with Raise AssertionError => true | _ => false end | _ => false end.
Definition c4 : string -> R -> Prop := fun _ r => r = Q2R (1#4) \/ r = Q2R (3#4).
Lemma direct_mid : direct exnom c4 none mid.
Proof.
  split; [apply (good_int X (Fin (1#4)%Q) (Fin (3#4)%Q) false false); exact Logic.I || reflexivity|]. constructor; [|constructor]. exists KInt, "X", (iv (Fin (1#4)%Q) (Fin (3#4)%Q) false false). split; [reflexivity|]. split; [discriminate|]. split; [exact Logic.I|]. split; [reflexivity|].
  split; [|intros vs y r [E|[]]; discriminate]. intros j [E|[]]. injection E as <-. intros r [E|E]; injection E as <-; [now left|now right].
Qed.
Lemma direct_tails4 : direct exnom c4 none tails.
Proof.
  split; [exact (proj1 direct_tails)|]. repeat (apply Forall_cons || apply Forall_nil).
  - exists KInt, "X", (iv NInf (Fin (1#4)%Q) true false). split; [reflexivity|]. split; [discriminate|]. split; [exact Logic.I|]. split; [reflexivity|]. split; [|intros vs y r [E|[]]; discriminate]. intros j [E|[]]. injection E as <-. intros r [E|E]; [discriminate|]. injection E as <-. now left.
  - exists KInt, "X", (iv (Fin (3#4)%Q) PInf false true). split; [reflexivity|]. split; [discriminate|]. split; [exact Logic.I|]. split; [reflexivity|]. split; [|intros vs y r [E|[]]; discriminate]. intros j [E|[]]. injection E as <-. intros r [E|E]; [|discriminate]. injection E as <-. now right.
Qed.
Lemma raisesq_ok : forall r q, raisesq r q = true -> exists t, r = Ok t /\ exask t q = Raise AssertionError.
Proof. intros [t|x] q H; [|discriminate]. exists t. split; auto. cbn [raisesq] in H. destruct (exask t q) as [p|[]]; try discriminate H. reflexivity. Qed.
Theorem C60_single_refuted : exists (s t : spQ) e q p, wf_spe elaw s /\ is_leaf s = true /\ direct exnom c4 none e /\ direct exnom c4 none q /\ (forall x, In x (symbols e ++ symbols q) -> own s x) /\
  exask s q = Ok p /\ observe exstep [e] s = Ok t /\ exask t q = Raise AssertionError.
Proof.
  assert (K : raisesq (observe exstep [mid] (lu "X")) tails = true) by (vm_compute; reflexivity). destruct (raisesq_ok _ _ K) as (t & Et & Ea).
  exists (lu "X"), t, mid, tails, (1#2)%Q. split; [exact (lu_wf "X")|]. split; [reflexivity|]. split; [exact direct_mid|]. split; [exact direct_tails4|]. split; [cbn; intuition|]. split; [reflexivity|]. split; [exact Et|exact Ea].
Qed.
Definition all_session_refutations := C60_single_refuted.
Print Assumptions all_session_refutations.
