(** Model of the log-space arithmetic of src/math_util.py.

    Log-probabilities are floats in [-oo, +oo).  [lr] are their exact counterparts, with the
    functions of math_util.py written on them.  The rest of the model is parametric in a log
    system, whose laws say which probability each result denotes; [LR] is the instance given
    by math_util.py, [LQ] an executable one that keeps the probabilities as rationals.
    Simplification: no rounding, no NaN, no +oo. *)
From Coq Require Import List Bool Reals Lra Lia ZArith QArith Qreals Qabs Rbase.
From Verif Require Import Base Num.
Import ListNotations.
Local Open Scope R_scope.

(** the sum of a list of real numbers *)
Definition sumR (l : list R) : R := fold_right Rplus 0 l.

(** a float in [-oo, +oo) *)
Inductive lr := LInf | LFin (x : R).

(** src/math_util.py:44-48 isinf_neg *)
Definition lr_isninf (a : lr) : bool := match a with LInf => true | LFin _ => false end.
(** Python's a + b, on the values that occur *)
Definition lr_add (a b : lr) : lr :=
  match a, b with LFin x, LFin y => LFin (x + y) | _, _ => LInf end.
(** Python's a - b.  a - (-oo) is +oo or NaN; it is not used, and is -oo here. *)
Definition lr_sub (a b : lr) : lr :=
  match a, b with LFin x, LFin y => LFin (x - y) | _, _ => LInf end.
(** Python's b < a *)
Definition lr_ltb (b a : lr) : bool :=
  match b, a with
  | LInf, LFin _ => true
  | LFin y, LFin x => if Rlt_dec y x then true else false
  | _, LInf => false
  end.
(** src/math_util.py:41-42 allclose, exactly *)
Definition lr_eqb (a b : lr) : bool :=
  match a, b with
  | LInf, LInf => true
  | LFin x, LFin y => if Req_EM_T x y then true else false
  | _, _ => false
  end.
(** numpy.log on [0, oo) *)
Definition np_log (x : R) : lr := if Rlt_dec 0 x then LFin (ln x) else LInf.
(** src/math_util.py:12-16 log1mexp; None is the argument +oo, where exp(-x) is 0 *)
Definition log1mexp (x : option R) : lr :=
  match x with
  | None => np_log (1 + - 0)
  | Some x =>
    if Rlt_dec x (683 / 1000) then np_log (- (exp (- x) - 1))
    else np_log (1 + - exp (- x))
  end.
(** src/math_util.py:18-23 logdiffexp *)
Definition logdiffexp (a b : lr) : res lr :=
  if lr_ltb b a then
    Ok (lr_add a (log1mexp (match a, b with LFin x, LFin y => Some (x - y) | _, _ => None end)))
  else if lr_eqb b a then Ok LInf
  else Raise ValueError.
(** scipy.special.logsumexp as math_util.py:8 imports it: shift by the maximum (by 0 if that is
    -oo), add the exponentials, take the logarithm, shift back.  ValueError on no elements. *)
Definition lr_max (l : list lr) : lr := fold_right (fun a m => if lr_ltb a m then m else a) LInf l.
Definition lr_exp (a : lr) : R := match a with LInf => 0 | LFin x => exp x end.
Definition logsumexp (l : list lr) : res lr :=
  match l with
  | [] => Raise ValueError
  | _ =>
    let m := match lr_max l with LInf => 0 | LFin x => x end in
    Ok (lr_add (np_log (sumR (map (fun a => lr_exp (lr_sub a (LFin m))) l))) (LFin m))
  end.

(** Log systems. *)
Record logsys := Logsys {
  lg : Type;
  (** the probability (or density) denoted *)
  toP : lg -> R;
  toP_nonneg : forall a, 0 <= toP a;
  (** -inf and 0 *)
  lninf : lg;
  lninf_ok : toP lninf = 0;
  lzero : lg;
  lzero_ok : toP lzero = 1;
  (** a + b and a - b *)
  ladd : lg -> lg -> lg;
  ladd_ok : forall a b, toP (ladd a b) = toP a * toP b;
  lsub : lg -> lg -> lg;
  lsub_ok : forall a b, 0 < toP b -> toP (lsub a b) = toP a / toP b;
  (** logsumexp *)
  lse : list lg -> res lg;
  lse_nil : lse [] = Raise ValueError;
  lse_ok : forall l, l <> [] -> exists r, lse l = Ok r /\ toP r = sumR (map toP l);
  (** logdiffexp: exact when the difference is not negative *)
  ldiff : lg -> lg -> res lg;
  ldiff_ok : forall a b, toP b <= toP a -> exists r, ldiff a b = Ok r /\ toP r = toP a - toP b;
  (** isinf_neg *)
  lisninf : lg -> bool;
  lisninf_ok : forall a, lisninf a = true <-> toP a = 0;
  (** allclose accepts equal numbers *)
  lclose : lg -> lg -> bool;
  lclose_ok : forall a b, toP a = toP b -> lclose a b = true;
  (** == *)
  leqb : lg -> lg -> bool;
  leqb_ok : forall a b, leqb a b = true -> toP a = toP b;
  (** log of a positive rational *)
  lofQ : Q -> lg;
  lofQ_ok : forall q, (0 < q)%Q -> toP (lofQ q) = Q2R q
}.
Arguments toP {_} _.
Arguments lninf {_}.
Arguments lzero {_}.
Arguments ladd {_} _ _.
Arguments lsub {_} _ _.
Arguments lse {_} _.
Arguments ldiff {_} _ _.
Arguments lisninf {_} _.
Arguments lclose {_} _ _.
Arguments leqb {_} _ _.
Arguments lofQ {_} _.

(** src/math_util.py:25-27 lognorm *)
Definition lognorm {S : logsys} (l : list (lg S)) : res (list (lg S)) :=
  do m <- lse l; Ok (map (fun a => lsub a m) l).

(** src/math_util.py:37-39 normalize *)
Definition normalize (p : list R) : list R := map (fun x => x / sumR p) p.
(** src/math_util.py:29-35 logflip, flip: the probabilities handed to numpy's choice *)
Definition logflip_p {S : logsys} (l : list (lg S)) : res (list R) :=
  do w <- lognorm l; Ok (normalize (map toP w)).

(** ** The laws of math_util.py *)
Lemma lr_exp_nonneg : forall a, 0 <= lr_exp a.
Proof. destruct a; simpl; [lra|left; apply exp_pos]. Qed.
Lemma lr_add_exp : forall a b, lr_exp (lr_add a b) = lr_exp a * lr_exp b.
Proof. destruct a, b; simpl; try ring. apply exp_plus. Qed.
Lemma lr_sub_exp : forall a b, 0 < lr_exp b -> lr_exp (lr_sub a b) = lr_exp a / lr_exp b.
Proof.
  destruct a, b; simpl; intros H; try lra; unfold Rdiv; try ring.
  rewrite <- exp_Ropp, <- exp_plus. f_equal.
Qed.
Lemma np_log_exp : forall x, 0 <= x -> lr_exp (np_log x) = x.
Proof. intros x H. unfold np_log. destruct (Rlt_dec 0 x); simpl; [now apply exp_ln|lra]. Qed.
Lemma lr_ltb_exp : forall a b, lr_ltb b a = true <-> lr_exp b < lr_exp a.
Proof.
  destruct a as [|x], b as [|y]; simpl; try (split; [discriminate|lra]).
  - split; [discriminate|]. pose proof (exp_pos y). lra.
  - split; auto. intros _. apply exp_pos.
  - destruct (Rlt_dec y x); split; intro H; auto; try discriminate; [now apply exp_increasing|]. apply exp_lt_inv in H. tauto.
Qed.
Lemma lr_exp_inj : forall a b, lr_exp a = lr_exp b -> a = b.
Proof.
  destruct a as [|x], b as [|y]; simpl; intro H; auto; try (pose proof (exp_pos y); lra); try (pose proof (exp_pos x); lra).
  f_equal. now apply exp_inv.
Qed.
Lemma lr_eqb_exp : forall a b, lr_eqb a b = true <-> lr_exp a = lr_exp b.
Proof.
  intros a b. split.
  - destruct a, b; simpl; intro H; auto; try discriminate. destruct (Req_EM_T x x0); congruence.
  - intro H. apply lr_exp_inj in H. subst. destruct b; simpl; auto. destruct (Req_EM_T x x); auto.
Qed.
Lemma logdiffexp_ok : forall a b, lr_exp b <= lr_exp a -> exists r, logdiffexp a b = Ok r /\ lr_exp r = lr_exp a - lr_exp b.
Proof.
  intros a b H. unfold logdiffexp. destruct (lr_ltb b a) eqn:E.
  - apply lr_ltb_exp in E. eexists. split; [reflexivity|]. rewrite lr_add_exp.
    destruct a as [|x]; simpl in *; [pose proof (lr_exp_nonneg b); lra|]. destruct b as [|y]; simpl in *.
    + rewrite np_log_exp by lra. ring.
    + assert (Hy : exp y = exp x * exp (- (x - y))) by (rewrite <- exp_plus; f_equal; ring).
      pose proof (exp_pos x). assert (exp (- (x - y)) < 1) by (apply (Rmult_lt_reg_l (exp x)); lra).
      destruct (Rlt_dec (x - y) (683/1000)); rewrite np_log_exp by lra; rewrite Hy; ring.
  - assert (E' : lr_exp b = lr_exp a).
    { destruct (Rlt_dec (lr_exp b) (lr_exp a)) as [K|K]; [apply lr_ltb_exp in K; congruence|lra]. }
    pose proof E' as E2. apply lr_eqb_exp in E2. rewrite E2. eexists. split; [reflexivity|]. simpl. lra.
Qed.
Lemma sumR_app : forall l m, sumR (l ++ m) = sumR l + sumR m.
Proof. induction l; simpl; intros; [lra|rewrite IHl; lra]. Qed.
Lemma sumR_scale : forall A (f : A -> R) c l, sumR (map (fun a => f a * c) l) = sumR (map f l) * c.
Proof. induction l; simpl; [ring|rewrite IHl; ring]. Qed.
Lemma sumR_nonneg : forall l, Forall (fun x => 0 <= x) l -> 0 <= sumR l.
Proof. induction 1; simpl; lra. Qed.
Lemma sumR_ext : forall A (f g : A -> R) l, (forall a, In a l -> f a = g a) -> sumR (map f l) = sumR (map g l).
Proof. intros A f g l H. f_equal. now apply map_ext_in. Qed.
Lemma logsumexp_ok : forall l, l <> [] -> exists r, logsumexp l = Ok r /\ lr_exp r = sumR (map lr_exp l).
Proof.
  intros l H. unfold logsumexp. destruct l as [|a l]; [tauto|].
  set (m := match lr_max (a :: l) with LInf => 0 | LFin x => x end). eexists. split; [reflexivity|].
  rewrite lr_add_exp, np_log_exp.
  - simpl lr_exp at 2. rewrite <- sumR_scale. apply sumR_ext. intros b _. rewrite lr_sub_exp by (apply exp_pos). simpl. pose proof (exp_pos m). field. lra.
  - apply sumR_nonneg. apply Forall_map, Forall_forall. intros b _. apply lr_exp_nonneg.
Qed.

(** ** The instance given by math_util.py *)
Definition LR : logsys.
Proof.
  refine (Logsys lr lr_exp lr_exp_nonneg LInf eq_refl (LFin 0) exp_0 lr_add lr_add_exp lr_sub lr_sub_exp
    logsumexp eq_refl logsumexp_ok logdiffexp logdiffexp_ok lr_isninf _ lr_eqb _ lr_eqb _ (fun q => np_log (Q2R q)) _).
  - intros [|x]; simpl; [tauto|]. split; [discriminate|]. pose proof (exp_pos x). lra.
  - intros a b H. now apply lr_eqb_exp.
  - intros a b H. now apply lr_eqb_exp.
  - intros q H. apply np_log_exp. left. replace 0 with (Q2R 0) by (unfold Q2R; simpl; lra). now apply Qlt_Rlt.
Defined.

(** ** An executable instance: probabilities as rationals *)
Definition lq_P (q : Q) : R := Q2R (Qabs q).
Definition lq_sum (l : list Q) : Q := fold_right (fun a s => Qred (Qabs a + s)) 0%Q l.
Definition lq_diff (a b : Q) : res Q := if Qle_bool (Qabs b) (Qabs a) then Ok (Qred (Qabs a - Qabs b)) else Raise ValueError.
Lemma lq_sum_nonneg : forall l, (0 <= lq_sum l)%Q.
Proof.
  induction l; [apply Qle_refl|]. cbn [lq_sum fold_right]. fold (lq_sum l). rewrite Qred_correct. apply (Qplus_le_compat 0 (Qabs a) 0); [apply Qabs_nonneg|auto].
Qed.
Lemma Q2R_0 : Q2R 0 = 0.
Proof. unfold Q2R; simpl; lra. Qed.
Lemma Qred_R : forall q, Q2R (Qred q) = Q2R q.
Proof. intro q. apply Qeq_eqR, Qred_correct. Qed.
Lemma lq_P_nonneg : forall q, 0 <= lq_P q.
Proof. intro q. unfold lq_P. rewrite <- Q2R_0. apply Qle_Rle, Qabs_nonneg. Qed.
Lemma lq_P_pos : forall q, (0 <= q)%Q -> lq_P q = Q2R q.
Proof. intros q H. apply Qeq_eqR. now apply Qabs_pos. Qed.
Definition LQ : logsys.
Proof.
  refine (Logsys Q lq_P lq_P_nonneg 0%Q Q2R_0 1%Q _ (fun a b => Qred (a * b)) _ (fun a b => Qred (a / b)) _
    (fun l => match l with [] => Raise ValueError | _ => Ok (lq_sum l) end) eq_refl _ lq_diff _ (fun q => Qeq_bool q 0) _
    (fun a b => Qeq_bool (Qabs a) (Qabs b)) _ Qeq_bool _ (fun q => q) _).
  - unfold lq_P, Q2R; simpl; lra.
  - intros a b. unfold lq_P. rewrite <- Q2R_mult. apply Qeq_eqR. rewrite Qred_correct. apply Qabs_Qmult.
  - intros a b H. unfold lq_P in *.
    assert (Hb : ~ (Qabs b == 0)%Q) by (intro K; rewrite (Qeq_eqR _ _ K), Q2R_0 in H; lra).
    rewrite <- Q2R_div by auto. apply Qeq_eqR. rewrite Qred_correct. unfold Qdiv. rewrite Qabs_Qmult. apply Qmult_comp; [reflexivity|].
    apply Qabs_Qinv.
  - intros l Hl. exists (lq_sum l). split; [destruct l; tauto|]. clear Hl. rewrite (lq_P_pos _ (lq_sum_nonneg l)).
    induction l; [apply Q2R_0|]. cbn [lq_sum fold_right map sumR]. fold (lq_sum l). fold (sumR (map lq_P l)). rewrite Qred_R, Q2R_plus, IHl. reflexivity.
  - intros a b H. unfold lq_diff, lq_P in *. apply Rle_Qle in H. pose proof H as H2. apply Qle_bool_iff in H2. rewrite H2.
    eexists. split; [reflexivity|]. rewrite <- Q2R_minus. apply Qeq_eqR. rewrite Qred_correct. apply Qabs_pos.
    apply (Qplus_le_l _ _ (Qabs b)). ring_simplify. exact H.
  - intro q. unfold lq_P. split; intro H.
    + apply Qeq_bool_iff in H. rewrite <- Q2R_0. apply Qeq_eqR. rewrite H. reflexivity.
    + apply Qeq_bool_iff. rewrite <- Q2R_0 in H. apply eqR_Qeq in H. destruct (Qlt_le_dec q 0) as [K|K].
      * rewrite Qabs_neg in H by (now apply Qlt_le_weak). rewrite <- (Qopp_involutive q), H. reflexivity.
      * now rewrite Qabs_pos in H.
  - intros a b H. apply Qeq_bool_iff. now apply eqR_Qeq.
  - intros a b H. apply Qeq_bool_iff in H. unfold lq_P. apply Qeq_eqR. now rewrite H.
  - intros q H. apply lq_P_pos. now apply Qlt_le_weak.
Defined.

(** ** Laws used by the rest of the development *)
Section Laws.
  Context {S : logsys}.
  Implicit Types (a b : lg S) (l : list (lg S)).
  Lemma lse_sum : forall l r, lse l = Ok r -> l <> [] /\ toP r = sumR (map toP l).
  Proof.
    intros l r H. assert (Ne : l <> []) by (intros ->; rewrite lse_nil in H; discriminate). split; auto.
    destruct (lse_ok S l Ne) as (r' & E & K). congruence.
  Qed.
  Lemma ldiff_sum : forall a b r, ldiff a b = Ok r -> toP b <= toP a -> toP r = toP a - toP b.
  Proof. intros a b r H K. destruct (ldiff_ok S a b K) as (r' & E & M). congruence. Qed.
  Lemma lisninf_no : forall a, lisninf a = false <-> 0 < toP a.
  Proof.
    intro a. pose proof (lisninf_ok S a). pose proof (toP_nonneg S a). destruct (lisninf a); split; intro K; try discriminate; auto.
    - destruct H as (H & _). rewrite H in K by auto. lra.
    - destruct (Req_dec (toP a) 0) as [E|E]; [apply H in E; discriminate|lra].
  Qed.
  Lemma sum_pos : forall l, Exists (fun a => 0 < toP a) l -> 0 < sumR (map toP l).
  Proof.
    induction 1; simpl.
    - assert (0 <= sumR (map toP l)); [|lra]. apply sumR_nonneg, Forall_map, Forall_forall. intros; apply toP_nonneg.
    - pose proof (toP_nonneg S x). lra.
  Qed.
  (** lognorm divides by the sum *)
  Lemma lognorm_ok : forall l r, lognorm l = Ok r -> Exists (fun a => 0 < toP a) l ->
    Forall2 (fun a b => toP b = toP a / sumR (map toP l)) l r /\ sumR (map toP r) = 1.
  Proof.
    intros l r H P. unfold lognorm in H. destruct (lse l) as [m|] eqn:E; [|discriminate]. injection H as <-.
    destruct (lse_sum l m E) as (Ne & Hm). pose proof (sum_pos l P) as Sp.
    assert (F : forall a, toP (lsub a m) = toP a / sumR (map toP l)) by (intro a; rewrite lsub_ok by lra; now rewrite Hm).
    split.
    - clear E Hm Ne P. revert Sp F. generalize (sumR (map toP l)). intros t _ F. induction l; constructor; auto.
    - rewrite map_map. rewrite (sumR_ext _ _ (fun a => toP a * / sumR (map toP l))) by (intros; apply F).
      rewrite sumR_scale. field. lra.
  Qed.
  Lemma lognorm_total : forall l, l <> [] -> exists r, lognorm l = Ok r.
  Proof. intros l H. destruct (lse_ok S l H) as (m & E & _). unfold lognorm. rewrite E. eexists. reflexivity. Qed.
End Laws.
