(** Numbers.

    SPPL mixes Python ints and floats with exact SymPy numbers (pi, sqrt(2), 1/3).
    The model is parametric in a number system: a type with decidable order and
    exact arithmetic, embedded in the reals by [toR].  Simplification with respect
    to the code: no floating-point rounding.  Numbers are compared by value, as
    Python's == and < do for every numeric type (1 == 1.0 == Fraction(1)). *)
From Coq Require Import Reals QArith Qpower Qround Qreals ZArith Bool List Lra Lia.
From Verif Require Import Base.
Local Open Scope R_scope.

Record numsys := Numsys {
  num : Type;
  toR : num -> R;
  nltb : num -> num -> bool;
  nltb_ok : forall x y, nltb x y = true <-> toR x < toR y;
  nint : Z -> num;
  nint_ok : forall z, toR (nint z) = IZR z;
  nadd : num -> num -> num;
  nadd_ok : forall x y, toR (nadd x y) = toR x + toR y;
  nmul : num -> num -> num;
  nmul_ok : forall x y, toR (nmul x y) = toR x * toR y;
  nopp : num -> num;
  nopp_ok : forall x, toR (nopp x) = - toR x;
  ninv : num -> num;
  ninv_ok : forall x, toR x <> 0 -> toR (ninv x) = / toR x;
  nfloor : num -> Z;
  nfloor_ok : forall x, IZR (nfloor x) <= toR x < IZR (nfloor x) + 1;
  (** base ** x and log_base(y): exact or declined *)
  npow : num -> num -> option num;
  npow_ok : forall b x y, 0 < toR b -> npow b x = Some y -> toR y = Rpower (toR b) (toR x);
  nlog : num -> num -> option num;
  nlog_ok : forall b y x, 0 < toR b -> toR b <> 1 -> 0 < toR y ->
    nlog b y = Some x -> Rpower (toR b) (toR x) = toR y
}.
Arguments toR {_} _.
Arguments nltb {_} _ _.
Arguments nint {_} _.
Arguments nadd {_} _ _.
Arguments nmul {_} _ _.
Arguments nopp {_} _.
Arguments ninv {_} _.
Arguments nfloor {_} _.
Arguments npow {_} _ _.
Arguments nlog {_} _ _.

Section Derived.
  Context {N : numsys}.
  Implicit Types x y : num N.
  Definition neqb x y := negb (nltb x y) && negb (nltb y x).
  Definition nleb x y := negb (nltb y x).
  Lemma neqb_ok : forall x y, neqb x y = true <-> toR x = toR y.
  Proof.
    intros. unfold neqb. rewrite andb_true_iff, !negb_true_iff.
    destruct (nltb x y) eqn:E1, (nltb y x) eqn:E2;
      try rewrite nltb_ok in E1; try rewrite nltb_ok in E2.
    - lra.
    - split; [intros []; discriminate|lra].
    - split; [intros []; discriminate|lra].
    - split; [intros _|auto].
      destruct (Rtotal_order (toR x) (toR y)) as [H|[H|H]]; auto;
        apply nltb_ok in H; congruence.
  Qed.
  Lemma nleb_ok : forall x y, nleb x y = true <-> toR x <= toR y.
  Proof.
    intros. unfold nleb. rewrite negb_true_iff.
    destruct (nltb y x) eqn:E.
    - rewrite nltb_ok in E. split; [discriminate|lra].
    - split; auto. intros _. apply Rnot_lt_le. intro H. apply nltb_ok in H. congruence.
  Qed.
  (** x ** n for a Python int n >= 0 *)
  Fixpoint npow_nat x (n : nat) : num N :=
    match n with O => nint 1 | S n => nmul x (npow_nat x n) end.
  Lemma npow_nat_ok : forall x n, toR (npow_nat x n) = toR x ^ n.
  Proof. induction n; simpl; [now rewrite nint_ok|now rewrite nmul_ok, IHn]. Qed.
  Definition nsub x y := nadd x (nopp y).
  Lemma nsub_ok : forall x y, toR (nsub x y) = toR x - toR y.
  Proof. intros. unfold nsub. rewrite nadd_ok, nopp_ok. lra. Qed.
End Derived.

(** ** Extended numbers: float('inf') and float('-inf') *)
Inductive ext (A : Type) := NInf | Fin (a : A) | PInf.
Arguments NInf {A}.
Arguments Fin {A} a.
Arguments PInf {A}.

Definition emap {A B} (f : A -> B) (x : ext A) : ext B :=
  match x with NInf => NInf | Fin a => Fin (f a) | PInf => PInf end.

(** order on extended reals *)
Definition elt (x y : ext R) : Prop :=
  match x, y with
  | NInf, NInf => False | NInf, _ => True
  | Fin _, NInf => False | Fin a, Fin b => a < b | Fin _, PInf => True
  | PInf, _ => False
  end.
Definition ele (x y : ext R) : Prop := elt x y \/ x = y.

Section ExtNum.
  Context {N : numsys}.
  Definition eR (x : ext (num N)) : ext R := emap toR x.
  (** src/math_util.py:44-48 isinf_pos, isinf_neg *)
  Definition is_ninf (x : ext (num N)) : bool := match x with NInf => true | _ => false end.
  Definition is_pinf (x : ext (num N)) : bool := match x with PInf => true | _ => false end.
  Definition is_inf (x : ext (num N)) : bool := is_ninf x || is_pinf x.
  (** Python's a < b, a == b, a <= b on numbers and infinities *)
  Definition eltb (x y : ext (num N)) : bool :=
    match x, y with
    | NInf, NInf => false | NInf, _ => true
    | Fin _, NInf => false | Fin a, Fin b => nltb a b | Fin _, PInf => true
    | PInf, _ => false
    end.
  Definition eeqb (x y : ext (num N)) : bool :=
    match x, y with
    | NInf, NInf => true | PInf, PInf => true
    | Fin a, Fin b => neqb a b
    | _, _ => false
    end.
  Definition eleb (x y : ext (num N)) : bool := eltb x y || eeqb x y.
End ExtNum.

(** ** Order embedding of the extended reals into [-1,1], used in proofs only:
    it turns reasoning about infinities into linear arithmetic. *)
Definition sq (x : R) : R := x / (1 + Rabs x).
Definition ord (x : ext R) : R :=
  match x with NInf => -1 | Fin a => sq a | PInf => 1 end.

Lemma sq_bound : forall x, -1 < sq x < 1.
Proof.
  intros x. unfold sq. assert (H : 0 <= Rabs x) by apply Rabs_pos.
  assert (H1 : - Rabs x <= x <= Rabs x).
  { split; [|apply Rle_abs]. generalize (Rle_abs (- x)). rewrite Rabs_Ropp. lra. }
  split.
  - apply Rmult_lt_reg_r with (1 + Rabs x); [lra|].
    unfold Rdiv. rewrite Rmult_assoc, Rinv_l; lra.
  - apply Rmult_lt_reg_r with (1 + Rabs x); [lra|].
    unfold Rdiv. rewrite Rmult_assoc, Rinv_l; lra.
Qed.

Lemma sq_mono : forall x y, x < y -> sq x < sq y.
Proof.
  intros x y H. unfold sq.
  assert (Hx : 0 < 1 + Rabs x) by (generalize (Rabs_pos x); lra).
  assert (Hy : 0 < 1 + Rabs y) by (generalize (Rabs_pos y); lra).
  apply Rmult_lt_reg_r with ((1 + Rabs x) * (1 + Rabs y)); [now apply Rmult_lt_0_compat|].
  replace (x / (1 + Rabs x) * ((1 + Rabs x) * (1 + Rabs y))) with (x * (1 + Rabs y))
    by (field; lra).
  replace (y / (1 + Rabs y) * ((1 + Rabs x) * (1 + Rabs y))) with (y * (1 + Rabs x))
    by (field; lra).
  destruct (Rle_or_lt 0 x) as [Px|Px], (Rle_or_lt 0 y) as [Py|Py].
  - rewrite (Rabs_right x), (Rabs_right y) by lra. nra.
  - lra.
  - rewrite (Rabs_left x), (Rabs_right y) by lra. nra.
  - rewrite (Rabs_left x), (Rabs_left y) by lra. nra.
Qed.

Lemma sq_lt : forall x y, sq x < sq y <-> x < y.
Proof.
  intros; split; [|apply sq_mono]. intros H.
  destruct (Rtotal_order x y) as [L|[->|L]]; auto; [lra|]. apply sq_mono in L. lra.
Qed.
Lemma sq_inj : forall x y, sq x = sq y -> x = y.
Proof.
  intros x y H. destruct (Rtotal_order x y) as [L|[L|L]]; auto; apply sq_mono in L; lra.
Qed.

Lemma ord_bound : forall x, -1 <= ord x <= 1.
Proof. intros [|x|]; simpl; try lra. generalize (sq_bound x); lra. Qed.
Lemma ord_lt : forall x y, elt x y <-> ord x < ord y.
Proof.
  intros [|x|] [|y|]; simpl; try (generalize (sq_bound x)); try (generalize (sq_bound y));
    try lra. intros; symmetry; apply sq_lt.
Qed.
Lemma ord_inj : forall x y, ord x = ord y -> x = y.
Proof.
  intros [|x|] [|y|]; simpl; try (generalize (sq_bound x)); try (generalize (sq_bound y));
    intros; try lra; auto. f_equal. now apply sq_inj.
Qed.
Lemma ord_eq : forall x y, x = y <-> ord x = ord y.
Proof. intros; split; [now intros ->|apply ord_inj]. Qed.
Lemma ord_le : forall x y, ele x y <-> ord x <= ord y.
Proof.
  intros. unfold ele. rewrite ord_lt, ord_eq. lra.
Qed.
Lemma ord_NInf : forall x, ord x = -1 <-> x = NInf.
Proof. intros; change (-1) with (ord NInf); symmetry; apply ord_eq. Qed.
Lemma ord_PInf : forall x, ord x = 1 <-> x = PInf.
Proof. intros; change 1 with (ord PInf); symmetry; apply ord_eq. Qed.
Lemma ord_Fin : forall x, -1 < ord (Fin x) < 1.
Proof. intros; apply sq_bound. Qed.

Section ExtFacts.
  Context {N : numsys}.
  Implicit Types x y : ext (num N).
  (** the position of an extended number, as a real *)
  Definition pos x : R := ord (eR x).
  Lemma pos_bound : forall x, -1 <= pos x <= 1.
  Proof. intros; apply ord_bound. Qed.
  Lemma eltb_pos : forall x y, eltb x y = true <-> pos x < pos y.
  Proof.
    intros. unfold pos. rewrite <- ord_lt. destruct x, y; simpl; try easy. apply nltb_ok.
  Qed.
  Lemma eeqb_pos : forall x y, eeqb x y = true <-> pos x = pos y.
  Proof.
    intros. unfold pos. rewrite <- ord_eq. destruct x, y; simpl; try easy.
    rewrite neqb_ok. split; congruence.
  Qed.
  Lemma eeqb_eR : forall x y, eeqb x y = true <-> eR x = eR y.
  Proof. intros. rewrite eeqb_pos. unfold pos. now rewrite <- ord_eq. Qed.
  Lemma eleb_pos : forall x y, eleb x y = true <-> pos x <= pos y.
  Proof. intros. unfold eleb. rewrite orb_true_iff, eltb_pos, eeqb_pos. lra. Qed.
  Lemma eltb_elt : forall x y, eltb x y = true <-> elt (eR x) (eR y).
  Proof. intros. rewrite eltb_pos, ord_lt. reflexivity. Qed.
  Lemma eltb_pos_f : forall x y, eltb x y = false <-> pos y <= pos x.
  Proof.
    intros. generalize (eltb_pos x y). destruct (eltb x y); intros [H1 H2].
    - assert (pos x < pos y) by auto. split; [discriminate|lra].
    - split; auto. intros _. apply Rnot_lt_le. intros H; apply H2 in H; discriminate.
  Qed.
  Lemma eeqb_pos_f : forall x y, eeqb x y = false <-> pos x <> pos y.
  Proof.
    intros. rewrite <- eeqb_pos. destruct (eeqb x y); split; congruence.
  Qed.
  Lemma eleb_pos_f : forall x y, eleb x y = false <-> pos y < pos x.
  Proof.
    intros. generalize (eleb_pos x y). destruct (eleb x y); intros [H1 H2].
    - assert (pos x <= pos y) by auto. split; [discriminate|lra].
    - split; auto. intros _. apply Rnot_le_lt. intros H; apply H2 in H; discriminate.
  Qed.
  Lemma is_ninf_pos : forall x, is_ninf x = true <-> pos x = -1.
  Proof. intros. unfold pos. rewrite ord_NInf. destruct x; simpl; easy. Qed.
  Lemma is_pinf_pos : forall x, is_pinf x = true <-> pos x = 1.
  Proof. intros. unfold pos. rewrite ord_PInf. destruct x; simpl; easy. Qed.
  Lemma is_ninf_pos_f : forall x, is_ninf x = false <-> -1 < pos x.
  Proof.
    intros. generalize (is_ninf_pos x), (pos_bound x). destruct (is_ninf x); intros [H1 H2] H.
    - split; [discriminate|]. rewrite H1; auto; lra.
    - split; auto. intros _. destruct (Req_dec (pos x) (-1)) as [E|]; [|lra].
      apply H2 in E; discriminate.
  Qed.
  Lemma is_pinf_pos_f : forall x, is_pinf x = false <-> pos x < 1.
  Proof.
    intros. generalize (is_pinf_pos x), (pos_bound x). destruct (is_pinf x); intros [H1 H2] H.
    - split; [discriminate|]. rewrite H1; auto; lra.
    - split; auto. intros _. destruct (Req_dec (pos x) 1) as [E|]; [|lra].
      apply H2 in E; discriminate.
  Qed.
  Lemma pos_NInf : pos NInf = -1. Proof. reflexivity. Qed.
  Lemma pos_PInf : pos PInf = 1. Proof. reflexivity. Qed.
  Lemma pos_eR : forall x y, pos x = pos y -> eR x = eR y.
  Proof. intros x y. apply ord_inj. Qed.
End ExtFacts.

(** ** The rationals: an executable number system *)
Local Open Scope Q_scope.

Definition Qltb (x y : Q) : bool := negb (Qle_bool y x).
Lemma Qltb_ok : forall x y, Qltb x y = true <-> (Q2R x < Q2R y)%R.
Proof.
  intros. unfold Qltb. rewrite negb_true_iff.
  destruct (Qle_bool y x) eqn:E.
  - apply Qle_bool_iff in E. split; [discriminate|].
    intros H. apply Rlt_Qlt in H. apply Qlt_not_le in H. tauto.
  - split; auto. intros _. apply Qlt_Rlt. apply Qnot_le_lt.
    intros H. apply Qle_bool_iff in H. congruence.
Qed.

(** Integer powers of a rational are exact, others are declined. *)
Definition Qpow (b x : Q) : option Q :=
  let x := Qred x in
  if (Qden x =? 1)%positive then Some (Qred (Qpower b (Qnum x))) else None.

(** Search for an integer exponent k, |k| <= 64, with b^k = y. *)
Definition Qlog_candidates : list Z := List.map (fun n => (Z.of_nat n - 64)%Z) (List.seq 0 129).
Definition Qlog (b y : Q) : option Q :=
  match List.find (fun k => Qeq_bool (Qpower b k) y) Qlog_candidates with
  | Some k => Some (inject_Z k)
  | None => None
  end.

Lemma Q2R_inject_Z : forall z, Q2R (inject_Z z) = IZR z.
Proof. intros. unfold Q2R, inject_Z; simpl. field. Qed.

Lemma Q2R_power_pos : forall b p, Q2R (Qpower_positive b p) = (Q2R b ^ Pos.to_nat p)%R.
Proof.
  intros b p. induction p using Pos.peano_ind.
  - simpl. unfold Qpower_positive; simpl. now rewrite Rmult_1_r.
  - rewrite Pos2Nat.inj_succ. simpl. rewrite <- IHp, <- Q2R_mult. apply Qeq_eqR.
    rewrite <- Pos.add_1_l. rewrite Qpower_plus_positive. reflexivity.
Qed.

Lemma Q2R_power : forall b k, (0 < Q2R b)%R -> Q2R (Qpower b k) = Rpower (Q2R b) (IZR k).
Proof.
  intros b k Hb. rewrite <- powerRZ_Rpower by assumption.
  assert (Hb' : ~ b == 0).
  { intros E. apply Qeq_eqR in E. rewrite E in Hb. unfold Q2R in Hb; simpl in Hb. lra. }
  destruct k as [|p|p]; simpl.
  - unfold Q2R; simpl; lra.
  - apply Q2R_power_pos.
  - rewrite Q2R_inv.
    + now rewrite Q2R_power_pos.
    + intros E. apply Hb'. clear -E.
      induction p using Pos.peano_ind.
      * exact E.
      * rewrite <- Pos.add_1_l in E. rewrite Qpower_plus_positive in E.
        apply Qmult_integral in E. destruct E as [E|E]; auto.
Qed.

Lemma Qpow_ok : forall b x y, (0 < Q2R b)%R -> Qpow b x = Some y -> Q2R y = Rpower (Q2R b) (Q2R x).
Proof.
  intros b x y Hb H. unfold Qpow in H.
  destruct ((Qden (Qred x) =? 1)%positive) eqn:E; [|discriminate].
  apply Pos.eqb_eq in E. injection H as <-.
  rewrite (Qeq_eqR _ _ (Qred_correct _)).
  rewrite Q2R_power by assumption. f_equal.
  rewrite <- (Qeq_eqR _ _ (Qred_correct x)).
  unfold Q2R at 1. rewrite E. field.
Qed.

Lemma Qlog_ok : forall b y x, (0 < Q2R b)%R -> Q2R b <> 1%R -> (0 < Q2R y)%R ->
  Qlog b y = Some x -> Rpower (Q2R b) (Q2R x) = Q2R y.
Proof.
  intros b y x Hb _ _ H. unfold Qlog in H.
  destruct (List.find _ _) as [k|] eqn:E; [|discriminate]. injection H as <-.
  apply List.find_some in E. destruct E as [_ E]. apply Qeq_bool_iff in E.
  rewrite Q2R_inject_Z, <- Q2R_power by assumption. now apply Qeq_eqR.
Qed.

Lemma Qfloor_R : forall x, (IZR (Qround.Qfloor x) <= Q2R x < IZR (Qround.Qfloor x) + 1)%R.
Proof.
  intros. split.
  - rewrite <- Q2R_inject_Z. apply Qle_Rle. apply Qround.Qfloor_le.
  - replace (IZR (Qround.Qfloor x) + 1)%R with (Q2R (inject_Z (Qround.Qfloor x + 1))).
    + apply Qlt_Rlt. apply Qround.Qlt_floor.
    + rewrite Q2R_inject_Z, plus_IZR. reflexivity.
Qed.

Definition Qinv_ok : forall x, Q2R x <> 0%R -> Q2R (Qred (/ x)) = (/ Q2R x)%R.
Proof.
  intros x H. rewrite (Qeq_eqR _ _ (Qred_correct _)). apply Q2R_inv.
  intros E. apply H. apply Qeq_eqR in E. rewrite E. unfold Q2R; simpl; lra.
Qed.
Lemma Qadd_ok : forall x y, Q2R (Qred (x + y)) = (Q2R x + Q2R y)%R.
Proof. intros. rewrite (Qeq_eqR _ _ (Qred_correct _)). apply Q2R_plus. Qed.
Lemma Qmul_ok : forall x y, Q2R (Qred (x * y)) = (Q2R x * Q2R y)%R.
Proof. intros. rewrite (Qeq_eqR _ _ (Qred_correct _)). apply Q2R_mult. Qed.

Definition Qnum_sys : numsys := {|
  num := Q; toR := Q2R;
  nltb := Qltb; nltb_ok := Qltb_ok;
  nint := inject_Z; nint_ok := Q2R_inject_Z;
  nadd x y := Qred (x + y); nadd_ok := Qadd_ok;
  nmul x y := Qred (x * y); nmul_ok := Qmul_ok;
  nopp := Qopp; nopp_ok := Q2R_opp;
  ninv x := Qred (/ x); ninv_ok := Qinv_ok;
  nfloor := Qround.Qfloor; nfloor_ok := Qfloor_R;
  npow := Qpow; npow_ok := Qpow_ok;
  nlog := Qlog; nlog_ok := Qlog_ok
|}.

(** ** The reals: every operation is total *)
Local Open Scope R_scope.

Definition Rltb (x y : R) : bool := if Rlt_dec x y then true else false.
Lemma Rltb_ok : forall x y, Rltb x y = true <-> x < y.
Proof. intros. unfold Rltb. destruct (Rlt_dec x y); split; easy. Qed.
Lemma Rfloor_ok : forall x, IZR (up x - 1) <= x < IZR (up x - 1) + 1.
Proof. intros. rewrite minus_IZR. destruct (archimed x). lra. Qed.
Lemma Rpow_ok : forall b x y : R, 0 < b -> Some (Rpower b x) = Some y -> y = Rpower b x.
Proof. congruence. Qed.
Lemma Rlog_ok : forall b y x : R, 0 < b -> b <> 1 -> 0 < y ->
  Some (ln y / ln b) = Some x -> Rpower b x = y.
Proof.
  intros b y x Hb Hb1 Hy H. injection H as <-. unfold Rpower.
  replace (ln y / ln b * ln b) with (ln y); [now apply exp_ln|].
  field. intros E. apply Hb1. rewrite <- (exp_ln b), E by assumption. apply exp_0.
Qed.

Definition Rnum_sys : numsys := {|
  num := R; toR := fun x => x;
  nltb := Rltb; nltb_ok := Rltb_ok;
  nint := IZR; nint_ok := fun z => eq_refl;
  nadd := Rplus; nadd_ok := fun x y => eq_refl;
  nmul := Rmult; nmul_ok := fun x y => eq_refl;
  nopp := Ropp; nopp_ok := fun x => eq_refl;
  ninv := Rinv; ninv_ok := fun x _ => eq_refl;
  nfloor := fun x => (up x - 1)%Z; nfloor_ok := Rfloor_ok;
  npow := fun b x => Some (Rpower b x); npow_ok := Rpow_ok;
  nlog := fun b y => Some (ln y / ln b); nlog_ok := Rlog_ok
|}.
