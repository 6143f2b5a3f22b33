(** A case for C60 with functions of variables. *)
From Coq Require Import List Bool String Reals Lra Lia ZArith QArith Qabs Qreals.
From Verif Require Import Base Num Sets SetSpec SetIv SetProofs SetOr SetOps SetAlg SetBuilt
  Poly Trans TransSpec TransFacts PolyProofs InvProofs InvMain EvProofs ArithProofs PolyEx
  Dnf DnfSpec DnfProofs DnfUnion Logs Spe SpeSpec SpeFacts SpeRect LeafProofs LeafEvents LeafCond SpeCons LeafGiven MemoProofs PropTrans NormSorts LogprobProofs LogprobTop SpeEq SimplifyProofs CondTypes CondProofs CondTop PropSpe Uniform Instances SpeEx
  SpeOps OpsProofs BuildProofs TransformProofs PropCons ConsEx Same ProgEx DensSpec DensProofs ConstrainProofs DensLimit DensPoint PropDens DensEx TotalSets PropTotal TotalUnion TotalGrid PropCondTotal
  CondShape CompileSpec SessionSpec PropSession SolveSpec AskSpec LinEx AskEx FunSpec FunTotal PropFun FunEx SessionEx PropSessionFun TotalSpec TotalEx CondTotalEx.
Import ListNotations.
Local Open Scope R_scope.
Local Open Scope string_scope.

(** The product p1 of SpeEx.v samples X, uniform on [0,1], and Y.  Observed: the conjunction mev of
    FunEx.v, by which 1/4 < X < 3/8 and Y is 'a'; then 1 + 2*X < 13/8.  Asked: |X - 1/2| > 7/32. *)
Notation step9 := (fun s e => fresh (condition ioQ so_id pl 9 (ids_of s) exhash s e)).
Notation ask9 s e := (fresh (logprob ioQ pl 9 (ids_of s) s e)).
Definition vlt : tr QS := EBasic KInt VX (iv NInf (Fin (13#8)%Q) true true).
Definition tgt7 : tr QS := EBasic KInt TX (iv (Fin (7#32)%Q) PInf true true).
Lemma comparison0 : forall a : tr QS, comparison exnom any any a -> comparison exnom any none a.
Proof.
  intros a (k & x & v & -> & F). exists k, x, v. split; [reflexivity|]. unfold fits in *. destruct (exnom x); [exact F|]. destruct F as (A & B & C & F & _). split; auto. split; auto. split; auto. split; auto. intros vs y r _ _ _. left. exact Logic.I.
Qed.
Lemma posed0 : forall e : tr QS, posed pl exnom any any e -> posed pl exnom any none e.
Proof.
  intros e (G & F & Sg). split; auto. split; [eapply Forall_impl; [|exact F]; intros a [C|C]; [left; now apply comparison0|now right]|]. intros a x Ha Hx. destruct (Sg a x Ha Hx) as [C|K]; [left; now apply comparison0|now right].
Qed.
Lemma vlt_posed : posed pl exnom any none vlt.
Proof.
  split; [apply (good_int VX NInf (Fin (13#8)%Q) true true); try reflexivity; repeat split|]. split; [cbn [lits vlt]; constructor; [right; apply (wv_curve (mkIv (N:=QS) NInf (Fin (13#8)%Q) true true)); repeat split; cbn; auto; discriminate|constructor]|].
  intros a x _ _. right. left. exact Logic.I.
Qed.
Lemma tgt7_posed : posed pl exnom any none tgt7.
Proof.
  split; [apply (good_int TX (Fin (7#32)%Q) PInf true true); try reflexivity; apply TX_good|]. split; [cbn [lits tgt7]; constructor; [right; apply (TX_curve (mkIv (N:=QS) (Fin (7#32)%Q) PInf true true)); repeat split; cbn; auto; discriminate|constructor]|].
  intros a x _ _. right. left. exact Logic.I.
Qed.
Lemma p1_tidy : tidy (D:=DQ) exnom exderived any True p1.
Proof.
  assert (Env : tidy_env exnom exderived "X" exenv).
  { split; [reflexivity|]. split; [reflexivity|]. intros y [<-|[<-|[]]]; split; try reflexivity; [now left|now right]. }
  unfold tidy. cbn [p1 ux y1 every All fst tidy_part]. repeat split; try apply Env; try reflexivity; try discriminate; try exact Logic.I; try (intros K; discriminate K); auto.
Qed.
Lemma p1_two : two (base exderived (vars p1)).
Proof. exists "X", "Y". split; [split; [cbn; auto|reflexivity]|]. split; [split; [cbn; auto|reflexivity]|discriminate]. Qed.
Lemma p1_sampled : forall e : tr QS, (forall x, In x (symbols e) -> x = "X" \/ x = "Y") -> sampled (D:=DQ) exderived p1 e.
Proof. intros e H. split; [|exact p1_two]. intros x Hx. destruct (H x Hx) as [-> | ->]; (split; [cbn; auto|reflexivity]). Qed.
Lemma p1_surely : forall e : tr QS, (forall a, regular true e a) -> surely elaw p1 (regular true e).
Proof.
  intros e H w. rewrite (law_ext (I:=fun g => SpeSpec.den elaw p1 g w) _ (fun _ => 0)); [apply (law_const (den_kernel elaw p1 p1_wf w))|]. intros a. apply ind_false. intros K. apply K, H.
Qed.
Definition mevs : list (tr QS) := [mev; vlt].
Definition mevs_answer : bool := match observe step9 mevs p1 with Ok t => match ask9 t tgt7 with Ok p => Qeq_bool p (1#2) | _ => false end | _ => false end.
Lemma mevs_ok : Forall (observed pl 9 elaw exnom exderived any p1) mevs.
Proof.
  constructor; [|constructor; [|constructor]]; right.
  - split; [exact (posed0 mev mev_posed)|]. split; [cbn; auto 9|]. split; [repeat constructor|]. split; [apply p1_sampled; cbn; intuition|exact mev_surely].
  - split; [exact vlt_posed|]. split; [exact Logic.I|]. split; [repeat constructor|]. split; [apply p1_sampled; cbn; intuition|]. apply p1_surely. intros a. cbn. repeat split; intros; discriminate.
Qed.
Example C60_functions_case : wf_spe elaw p1 /\ typed exnom exenvof p1 /\ tidy exnom exderived any True p1 /\ Forall (observed pl 9 elaw exnom exderived any p1) mevs /\ 0 < Pr elaw p1 (all_hold mevs) /\
  posed pl exnom any none tgt7 /\ sampled exderived p1 tgt7 /\ surely elaw p1 (regular true tgt7) /\ mevs_answer = true.
Proof.
  assert (Ty : typed exnom exenvof p1) by apply sx_typed. assert (Ans : mevs_answer = true) by (vm_compute; reflexivity).
  split; [exact p1_wf|]. split; [exact Ty|]. split; [exact p1_tidy|]. split; [exact mevs_ok|]. split.
  - unfold mevs_answer in Ans. destruct (observe step9 mevs p1) as [t|] eqn:E; [|discriminate Ans].
    destruct (C60_steps ioQ so_id pl elaw elaw_eq ids_of exhash exnom exenvof ids_distinct 9 mevs p1 t p1_wf Ty) as (_ & _ & P & _); auto.
    eapply Forall_impl; [|exact mevs_ok]. intros e Oe. split; [exact (observed_conditionable pl 9 elaw exnom exenvof exderived any p1 e p1_wf p1_tidy Oe)|exact (observed_univariate pl 9 elaw exnom exderived any p1 e Oe)].
  - split; [exact tgt7_posed|]. split; [apply p1_sampled; cbn; intuition|]. split; [apply p1_surely; intros a; cbn; repeat split; intros; discriminate|exact Ans].
Qed.

Definition all_session_fun_properties := (@C60_functions_partial, @C60_function_answers_partial).
Print Assumptions all_session_fun_properties.
