(** Cases for C56. *)
From Coq Require Import List Bool String Reals Lra Lia ZArith QArith.
From Verif Require Import Base Num Sets SetSpec SetIv SetProofs SetOr SetOps SetAlg SetBuilt
  Poly Trans TransSpec TransFacts PolyProofs InvProofs InvMain PolyEx SolveSpec InvTotal PropSolve QuadEx.
Import ListNotations.
Local Open Scope R_scope.
Local Open Scope string_scope.

Definition ioR : iterorder RN := io_id RN.
Definition rn (x : R) : ext (num RN) := Fin (x : num RN).
Definition rx : tr RN := TId "X".
Definition rpoly (t : tr RN) (cs : list R) : tr RN := TPoly t (cs : list (num RN)).
(** 2 ** (1 - |X - 3|) >= 1/2 *)
Definition ex_tent : tr RN := EBasic KInt (TExp (rpoly (TAbs (rpoly rx [-3; 1])) [1; -1]) (2 : num RN)) (PB (BInt (mkIv (rn (/ 2)) PInf false true))).
(** X**2 - 6*X << {0, 7} *)
Definition ex_two : tr RN := EBasic KReal (rpoly rx [0; -6; 1]) (PB (BReal [rn 0; rn 7])).
(** log2(1/(4 - X**2)) < 3 *)
Definition ex_log : tr RN := EBasic KInt (TLog (TRecip (rpoly rx [4; 0; -1])) (2 : num RN)) (PB (BInt (mkIv NInf (rn 3) true true))).

Example ex_tent_solvable : solvable po_quad ex_tent.
Proof.
  split; [repeat split; simpl; auto; discriminate|]. cbn [chain lower]. split; [cbn; lra|]. split; [exact real_logs|]. split; [auto|].
  unfold rpoly. cbn [chain lower]. split; [apply quad_linear; lra|]. split; [discriminate|]. split; [apply quad_linear; lra|exact I].
Qed.
Example ex_two_solvable : solvable po_quad ex_two.
Proof.
  cbn [solvable chained ex_two]. unfold rn, rpoly. split; [split; [|discriminate]|split].
  - cbn. constructor; [intros [K|[]]; injection K; lra|constructor; [intros []|constructor]].
  - intros x (y & [<-|[<-|[]]] & <-); cbn; eauto.
  - cbn [chain]. split; [apply quad_parabola; lra|]. split; [discriminate|exact I].
Qed.
Example ex_log_solvable : solvable po_quad ex_log.
Proof.
  split; [repeat split; simpl; auto; discriminate|]. cbn [chain lower]. split; [cbn; lra|]. split; [exact real_powers|]. split; [auto|].
  unfold rpoly. cbn [chain lower]. split; [apply quad_parabola; lra|]. split; [discriminate|exact I].
Qed.
Definition ex_any : tr RN := EOr [ex_tent; ex_two].
Example ex_any_solvable : solvable po_quad ex_any.
Proof.
  cbn [solvable ex_any]. split; [discriminate|]. split; [apply Forall_cons; [exact ex_tent_solvable|apply Forall_cons; [exact ex_two_solvable|constructor]]|]. exists "X". repeat constructor.
Qed.

Lemma truth_one : forall P : Prop, truth P = one <-> P.
Proof. intros P. unfold truth. destruct (dec P); split; intros H; auto; [injection H; lra|contradiction]. Qed.
Definition at_ (x : R) : asg := fun _ => FNum x.
Lemma tent_at : forall x, holds ex_tent (at_ x) <-> Rabs (x - 3) <= 2.
Proof.
  intros x. unfold holds, ex_tent, rpoly, rx, at_, f_exp. cbn [teval num_op f_exp]. rewrite truth_one. unfold fm. cbn [inj mem bmem]. unfold iv_mem. cbn -[Rpower ele elt]. unfold ele. cbn -[Rpower].
  replace (-3 + x * (1 + x * 0)) with (x - 3) by ring. replace (1 + Rabs (x - 3) * (-1 + Rabs (x - 3) * 0)) with (1 - Rabs (x - 3)) by ring.
  assert (H : / 2 = Rpower 2 (-1)) by (replace (-1) with (- (1)) by lra; rewrite Rpower_Ropp, Rpower_1; lra). rewrite H. split.
  - intros (K & _). destruct (Rle_dec (Rabs (x - 3)) 2) as [L|L]; auto. exfalso. assert (M : Rpower 2 (1 - Rabs (x - 3)) < Rpower 2 (-1)) by (apply Rpower_lt; lra). destruct K as [K|K]; [lra|injection K as K; lra].
  - intros L. split; auto. destruct L as [L|L]; [left; apply Rpower_lt; lra|right; f_equal; f_equal; lra].
Qed.
Lemma two_at : forall x, holds ex_two (at_ x) <-> x * x - 6 * x = 0 \/ x * x - 6 * x = 7.
Proof.
  intros x. unfold holds, ex_two, rpoly, rx, at_. cbn [teval num_op]. rewrite truth_one. unfold fm, rn. cbn -[Rpower]. replace (0 + x * (-6 + x * (1 + x * 0))) with (x * x - 6 * x) by ring. split.
  - intros (y & [<-|[<-|[]]] & K); cbn in K; injection K; lra.
  - intros [->| ->]; [exists (rn 0)|exists (rn 7)]; (split; [|reflexivity]); auto.
Qed.
(** Two exponents above a piecewise-linear function, or a quadratic polynomial: the answer is
    [1, 5] with -1, 0, 6 and 7. *)
Example C56_case : exists r, solve ioR po_quad 2 ex_any = Ok r /\ forall x, fm (FNum x) r <-> (1 <= x <= 5 \/ x = 0 \/ x = 6 \/ x = -1 \/ x = 7).
Proof.
  destruct (C56_plain_comparison_solved_partial ioR po_quad 2 ex_any ltac:(lia) ex_any_solvable) as (X & r & _ & E & _ & _ & H); [cbn; repeat split; auto; discriminate|].
  exists r. split; [exact E|]. intros x. change (FNum x) with (at_ x X). rewrite H. unfold holds at 1, ex_any. cbn [teval]. unfold kor. set (l := map _ _).
  assert (In one l <-> holds ex_tent (at_ x) \/ holds ex_two (at_ x)) as Hl by (unfold l, holds; cbn [map In]; tauto).
  transitivity (In one l); [destruct (dec (In one l)); [tauto|]; split; [|tauto]; destruct (dec (forall o, In o l -> o = zero)); [intros K; exfalso; injection K; lra|discriminate]|].
  rewrite Hl, tent_at, two_at. assert (A : Rabs (x - 3) <= 2 <-> 1 <= x <= 5). { split; [intros K; unfold Rabs in K; destruct (Rcase_abs (x - 3)); lra|intros K; apply Rabs_le; lra]. } rewrite A.
  assert (B : x * x - 6 * x = 0 <-> x = 0 \/ x = 6). { split; [intros K; assert (M : x * (x - 6) = 0) by lra; apply Rmult_integral in M; lra|intros [->| ->]; ring]. }
  assert (C : x * x - 6 * x = 7 <-> x = -1 \/ x = 7). { split; [intros K; assert (M : (x + 1) * (x - 7) = 0) by lra; apply Rmult_integral in M; lra|intros [->| ->]; ring]. }
  rewrite B, C. tauto.
Qed.
(** the logarithm is solved too *)
Example C56_log_case : exists r, solve ioR po_quad 2 ex_log = Ok r /\ forall x, fm (FNum x) r <-> holds ex_log (at_ x).
Proof.
  destruct (C56_comparison_solved_partial ioR po_quad 2 ex_log ltac:(lia) ex_log_solvable) as (X & r & _ & E & _ & _ & H). exists r. split; [exact E|]. intros x. change (FNum x) with (at_ x X). apply H. cbn. repeat split; auto; discriminate.
Qed.
(** SymPy's part of the bargain can be kept for every linear and every quadratic polynomial. *)
Example C56_sympy_case : exists po : polyoracle RN, (forall c0 c1 : R, c1 <> 0 -> linear po c0 c1) /\ (forall c0 c1 c2 : R, c2 <> 0 -> parabola po c0 c1 c2).
Proof. exists po_quad. split; [exact quad_linear|exact quad_parabola]. Qed.

(** Not every comparison that has solutions is solved: at several numbers the reciprocal and the
    exponential raise, and so does the absolute value of a reciprocal. *)
Definition qs := po_small QS.
Definition qrecip : tr QS := TRecip (TId "X").
Definition bad_recip : tr QS := EBasic KReal qrecip (PB (BReal [qn (-1); qn 1])).
Definition bad_abs : tr QS := EBasic KReal (TAbs qrecip) (PB (BReal [qn 2])).
Definition bad_exp : tr QS := EBasic KReal (TExp (TId "X") (2%Q : num QS)) (PB (BReal [qn 0; qn 1])).
Definition atx (x : R) : asg := fun _ => FNum x.
Theorem C56_several_numbers_refuted :
  (gev bad_recip /\ only "X" bad_recip /\ plain bad_recip /\ holds bad_recip (atx 1) /\ forall fuel, (2 <= fuel)%nat -> solve ioQ qs fuel bad_recip = Raise AssertionError) /\
  (gev bad_abs /\ only "X" bad_abs /\ plain bad_abs /\ holds bad_abs (atx (/ 2)) /\ forall fuel, (2 <= fuel)%nat -> solve ioQ qs fuel bad_abs = Raise AssertionError) /\
  (gev bad_exp /\ only "X" bad_exp /\ plain bad_exp /\ holds bad_exp (atx 0) /\ forall fuel, (2 <= fuel)%nat -> solve ioQ qs fuel bad_exp = Raise AssertionError).
Proof.
  assert (On : forall e : tr QS, symbols e = ["X"] -> only "X" e) by (intros e E y Hy; rewrite E in Hy; destruct Hy as [<-|[]]; reflexivity).
  assert (Q2 : forall q : Q, toR (n:=QS) q = Q2R q) by reflexivity.
  split; [|split].
  - split; [split; [|reflexivity]|].
    + cbn [good bad_recip qrecip realv]. ands; try exact I; try (right; eauto; fail). cbn. split; [|discriminate]. constructor; [intros [K|[]]; injection K as K; unfold Q2R in K; cbn in K; lra|constructor; [intros []|constructor]].
    + split; [now apply On|]. split; [cbn; repeat split; discriminate|]. split.
      * unfold holds. cbn [teval bad_recip qrecip num_op]. unfold atx, f_recip. destruct (Req_EM_T 1 0); [lra|]. apply truth_one. cbn. exists (qn 1). split; [auto|]. cbn. f_equal. rewrite RMicromega.Q2R_1. lra.
      * intros [|[|n]] Hf; try lia. reflexivity.
  - split; [split; [|reflexivity]|].
    + cbn [good bad_abs qrecip realv]. ands; try exact I; try (right; eauto; fail). cbn. split; [|discriminate]. constructor; [intros []|constructor].
    + split; [now apply On|]. split; [cbn; repeat split; discriminate|]. split.
      * unfold holds. cbn [teval bad_abs qrecip num_op]. unfold atx, f_recip. destruct (Req_EM_T (/ 2) 0); [lra|]. apply truth_one. cbn. exists (qn 2). split; [auto|]. cbn. f_equal. rewrite Rinv_inv, Rabs_pos_eq; unfold Q2R; cbn; lra.
      * intros [|[|n]] Hf; try lia. reflexivity.
  - split; [split; [|reflexivity]|].
    + cbn [good bad_exp realv]. ands; try exact I; try (right; eauto; fail); [rewrite Q2; unfold Q2R; cbn; lra|]. cbn. split; [|discriminate]. constructor; [intros [K|[]]; injection K as K; unfold Q2R in K; cbn in K; lra|constructor; [intros []|constructor]].
    + split; [now apply On|]. split; [cbn; repeat split; discriminate|]. split.
      * unfold holds. cbn [teval bad_exp num_op]. unfold atx, f_exp. apply truth_one. cbn [fm mem inj bmem]. exists (qn 1). split; [cbn; auto|]. assert (B : Rpower (toR (n:=QS) (2%Q : num QS)) 0 = 1) by (apply Rpower_O; rewrite Q2; unfold Q2R; cbn; lra).  rewrite B. cbn. f_equal. exact RMicromega.Q2R_1.
      * intros [|[|n]] Hf; try lia. reflexivity.
Qed.

Definition all_C56_properties := (@C56_comparison_solved_partial, @C56_plain_comparison_solved_partial, @C56_several_numbers_refuted).
Print Assumptions all_C56_properties.
