(** Property C20: log-space arithmetic (src/math_util.py) is exact arithmetic on probabilities.
    [lr] are exact floats in [-oo, +oo), [lr_exp] the probability that one denotes. *)
From Coq Require Import List Bool Reals Lra Lia QArith Qreals.
From Verif Require Import Base Num Logs.
Import ListNotations.
Local Open Scope R_scope.

(** log1mexp(x) is log(1 - e^-x), on both branches and at +oo *)
Theorem C20_log1mexp : forall x, 0 <= x -> lr_exp (log1mexp (Some x)) = 1 - exp (- x).
Proof.
  intros x H. assert (exp (- x) <= 1).
  { rewrite <- exp_0. destruct H as [H|<-]; [left; apply exp_increasing; lra|rewrite Ropp_0; lra]. }
  unfold log1mexp. destruct (Rlt_dec x (683/1000)); rewrite np_log_exp by lra; lra.
Qed.
Theorem C20_log1mexp_inf : lr_exp (log1mexp None) = 1.
Proof. unfold log1mexp. rewrite np_log_exp; lra. Qed.
(** logdiffexp(a, b) is log(e^a - e^b), and raises ValueError exactly when that is negative *)
Theorem C20_logdiffexp : forall a b, lr_exp b <= lr_exp a -> exists r, logdiffexp a b = Ok r /\ lr_exp r = lr_exp a - lr_exp b.
Proof. apply logdiffexp_ok. Qed.
Theorem C20_logdiffexp_raises : forall a b, logdiffexp a b = Raise ValueError <-> lr_exp a < lr_exp b.
Proof.
  intros a b. split.
  - intro H. apply Rnot_le_lt. intro K. destruct (logdiffexp_ok a b K) as (r & E & _). congruence.
  - intro H. unfold logdiffexp. destruct (lr_ltb b a) eqn:E; [apply lr_ltb_exp in E; lra|].
    destruct (lr_eqb b a) eqn:E2; [apply lr_eqb_exp in E2; lra|reflexivity].
Qed.
(** logsumexp is the logarithm of the sum of the exponentials; only the empty list fails *)
Theorem C20_logsumexp : forall l, l <> [] -> exists r, logsumexp l = Ok r /\ lr_exp r = sumR (map lr_exp l).
Proof. apply logsumexp_ok. Qed.
Theorem C20_logsumexp_raises : forall l e, logsumexp l = Raise e <-> l = [] /\ e = ValueError.
Proof.
  intros l e. split; [|intros (-> & ->); reflexivity]. intro H. destruct l as [|a l]; [injection H as <-; auto|].
  destruct (logsumexp_ok (a :: l) ltac:(discriminate)) as (r & E & _). congruence.
Qed.
(** the numbers are determined by the probabilities they denote *)
Theorem C20_exp_inj : forall a b, lr_exp a = lr_exp b -> a = b.
Proof. apply lr_exp_inj. Qed.
(** lognorm divides by the total: the ratios are kept and the results total 1 *)
Theorem C20_lognorm : forall l : list (lg LR), (exists a, In a l /\ a <> LInf) ->
  exists r, lognorm l = Ok r /\ Forall2 (fun a b => lr_exp b = lr_exp a / sumR (map lr_exp l)) l r /\ sumR (map lr_exp r) = 1.
Proof.
  intros l (a & Ha & Na). destruct (lognorm_total (S:=LR) l) as (r & E); [intros ->; destruct Ha|]. exists r. split; auto.
  apply (lognorm_ok (S:=LR) l r E). apply Exists_exists. exists a. split; auto. destruct a; [tauto|]. apply exp_pos.
Qed.
(** the probabilities with which logflip draws the elements *)
Theorem C20_logflip : forall l : list (lg LR), (exists a, In a l /\ a <> LInf) ->
  logflip_p l = Ok (map (fun a => lr_exp a / sumR (map lr_exp l)) l).
Proof.
  intros l H. destruct (C20_lognorm l H) as (r & E & F & S1). unfold logflip_p. rewrite E. simpl. f_equal. unfold normalize.
  change (@toP LR) with lr_exp. rewrite S1. rewrite map_map. clear -F. revert F. generalize (sumR (map lr_exp l)). intros t F.
  induction F; simpl; auto. f_equal; auto. rewrite H. lra.
Qed.

(** e^(ln 3) - e^(ln 2) = 1, and log1mexp is used on both sides of its threshold *)
Example C20_case_diff : exists r, logdiffexp (LFin (ln 3)) (LFin (ln 2)) = Ok r /\ lr_exp r = 1.
Proof.
  destruct (C20_logdiffexp (LFin (ln 3)) (LFin (ln 2))) as (r & E & K); simpl in *; rewrite !exp_ln in * by lra; [lra|].
  exists r. split; auto. lra.
Qed.
Example C20_case_near : lr_exp (log1mexp (Some (ln (3/2)))) = 1 / 3.
Proof.
  assert (0 <= ln (3/2)) by (rewrite <- ln_1; left; apply ln_increasing; lra).
  rewrite C20_log1mexp by auto. rewrite exp_Ropp, exp_ln by lra. field.
Qed.
Example C20_case_zero : logdiffexp (LFin 0) LInf = Ok (LFin 0) /\ logdiffexp LInf LInf = Ok LInf /\ logdiffexp LInf (LFin 0) = Raise ValueError.
Proof.
  split; [|split].
  - unfold logdiffexp, log1mexp. simpl. unfold np_log. destruct (Rlt_dec 0 (1 + - 0)); [|lra]. simpl. f_equal. f_equal.
    replace (1 + - 0) with 1 by lra. rewrite ln_1. lra.
  - reflexivity.
  - reflexivity.
Qed.
Example C20_case_sum : exists r, logsumexp [LFin (ln (1/4)); LInf; LFin (ln (1/2))] = Ok r /\ lr_exp r = 3 / 4.
Proof.
  destruct (C20_logsumexp [LFin (ln (1/4)); LInf; LFin (ln (1/2))]) as (r & E & K); [discriminate|]. exists r. split; auto.
  rewrite K. simpl. rewrite !exp_ln by lra. lra.
Qed.
Example C20_case_norm : exists a b, lognorm (S:=LR) [LFin (ln 1); LFin (ln 3)] = Ok [a; b] /\ lr_exp a = 1 / 4 /\ lr_exp b = 3 / 4.
Proof.
  destruct (C20_lognorm [LFin (ln 1); LFin (ln 3)]) as (r & E & F & _).
  - exists (LFin (ln 1)). split; [simpl; auto|discriminate].
  - inversion F as [|? a ? r1 Ha F1]; subst. inversion F1 as [|? b ? r2 Hb F2]; subst. inversion F2; subst. exists a, b.
    split; auto. simpl in *. rewrite !exp_ln in * by lra. rewrite Ha, Hb. split; field.
Qed.

Definition all_log_properties :=
  (@C20_log1mexp, @C20_log1mexp_inf, @C20_logdiffexp, @C20_logdiffexp_raises, @C20_logsumexp, @C20_logsumexp_raises,
   @C20_exp_inj, @C20_lognorm, @C20_logflip, @C20_case_diff, @C20_case_near, @C20_case_zero, @C20_case_sum, @C20_case_norm).
Print Assumptions all_log_properties.
