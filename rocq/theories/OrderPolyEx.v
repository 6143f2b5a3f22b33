(** A question whose answer depends on the iteration order of frozensets (C61): comparing the
    polynomial t (t-1)^2 (t-2)^2 (t-3) for t = 4 x - 1/2 with zero.  Poly.invert_interval
    (src/transforms.py:664-671) complements the solution (1/8,3/8) | (3/8,5/8) | (5/8,7/8) of
    "less than zero". *)
From Coq Require Import List Bool String Reals Rsqrt_def Lra Lia ZArith QArith Qreals Permutation.
From Verif Require Import Base Num Sets SetSpec SetIv SetProofs SetBuilt Poly Trans TransSpec Logs Spe SpeSpec SpeFacts LeafProofs SpeCons LeafGiven MemoProofs LogprobTop PropSpe Uniform Instances SpeEx ConsEx SpeOps ProgEx DensEx TotalEx FunEx Same TotalProofs PropSets PropOrder OrderEx.
Import ListNotations.
Local Open Scope R_scope.

Definition sextic : list (num QS) := [1575 # 64; -435; 2803; -8832; 14656; -12288; 4096]%Q.
Lemma sextic_ok : forall x, let t := 4 * x - 1 / 2 in
  Rpoly (N:=QS) sextic x = t * (t - 1) ^ 2 * (t - 2) ^ 2 * (t - 3).
Proof. intros x t. unfold sextic, t. simpl. unfold Q2R. simpl. field. Qed.

Lemma sextic_negative : forall x, x * (x - 1) ^ 2 * (x - 2) ^ 2 * (x - 3) < 0 <->
  0 < x < 1 \/ 1 < x < 2 \/ 2 < x < 3.
Proof.
  intros x. split.
  - intros H.
    assert (N1 : x <> 1) by (intros ->; simpl in H; lra).
    assert (N2 : x <> 2) by (intros ->; simpl in H; lra).
    assert (P : 0 <= ((x - 1) * (x - 2)) ^ 2) by apply pow2_ge_0.
    assert (U : x * (x - 3) < 0).
    { destruct (Rlt_dec (x * (x - 3)) 0) as [L|L]; [exact L|].
      exfalso. assert (0 <= x * (x - 3) * ((x - 1) * (x - 2)) ^ 2) by (apply Rmult_le_pos; lra).
      replace (x * (x - 1) ^ 2 * (x - 2) ^ 2 * (x - 3)) with (x * (x - 3) * ((x - 1) * (x - 2)) ^ 2) in H by ring. lra. }
    assert (0 < x) by nra. assert (x < 3) by nra. lra.
  - intros H. replace (x * (x - 1) ^ 2 * (x - 2) ^ 2 * (x - 3)) with (- ((x * (3 - x)) * ((x - 1) * (x - 2)) ^ 2)) by ring.
    assert (0 < x * (3 - x)) by (apply Rmult_lt_0_compat; lra).
    assert (0 < ((x - 1) * (x - 2)) ^ 2).
    { rewrite <- Rsqr_pow2. apply Rsqr_pos_lt.
      apply Rmult_integral_contrapositive. split; lra. }
    assert (0 < x * (3 - x) * ((x - 1) * (x - 2)) ^ 2) by now apply Rmult_lt_0_compat. lra.
Qed.

Lemma sextic_range : forall y, -32 / 27 <= y <-> exists x, x * (x - 1) ^ 2 * (x - 2) ^ 2 * (x - 3) = y.
Proof.
  intros y. split.
  - intros H. set (f := fun x => x * (x - 1) ^ 2 * (x - 2) ^ 2 * (x - 3) - y).
    set (s := sqrt (19 / 3)). assert (Hs : s * s = 19 / 3) by (apply sqrt_sqrt; lra).
    assert (Ps : 0 <= s) by apply sqrt_pos.
    assert (C : continuity f) by (unfold f; reg).
    set (x0 := (3 + s) / 2). set (M := 4 + s + Rabs y).
    assert (E0 : f x0 = -32 / 27 - y).
    { unfold f. replace (x0 * (x0 - 1) ^ 2 * (x0 - 2) ^ 2 * (x0 - 3)) with
        ((x0 * (x0 - 3)) * (x0 * (x0 - 3) + 2) ^ 2) by ring.
      replace (x0 * (x0 - 3)) with (-2 / 3); [field|]. unfold x0.
      replace ((3 + s) / 2 * ((3 + s) / 2 - 3)) with ((s * s - 9) / 4) by field. rewrite Hs. field. }
    assert (EM : 0 <= f M).
    { unfold f. pose proof (Rle_abs y). pose proof (Rabs_pos y).
      replace (M * (M - 1) ^ 2 * (M - 2) ^ 2 * (M - 3)) with ((M * (M - 3)) * (M * (M - 3) + 2) ^ 2) by ring.
      assert (U : y <= M * (M - 3)) by (unfold M in *; nra).
      assert (V : 0 <= M * (M - 3)) by (unfold M in *; nra).
      set (u := M * (M - 3)) in *. nra. }
    destruct (IVT_cor f x0 M C) as (z & _ & Hz).
    + unfold x0, M. pose proof (Rabs_pos y). lra.
    + rewrite E0. nra.
    + exists z. unfold f in Hz. lra.
  - intros (x & <-).
    replace (x * (x - 1) ^ 2 * (x - 2) ^ 2 * (x - 3)) with ((x * (x - 3)) * (x * (x - 3) + 2) ^ 2) by ring.
    assert (U : -9 / 4 <= x * (x - 3)).
    { assert (0 <= (x - 3 / 2) ^ 2) by apply pow2_ge_0. replace (x * (x - 3)) with ((x - 3 / 2) ^ 2 - 9 / 4) by field. lra. }
    set (u := x * (x - 3)) in *.
    assert (K : 0 <= (u + 2 / 3) ^ 2 * (u + 8 / 3)) by (apply Rmult_le_pos; [apply pow2_ge_0|lra]).
    replace ((u + 2 / 3) ^ 2 * (u + 8 / 3)) with (u * (u + 2) ^ 2 + 32 / 27) in K by field. lra.
Qed.

(** SymPy as it answers about this polynomial; about others it declines *)
Definition frac_dec : forall x y : Q, {x = y} + {x <> y}.
Proof. decide equality; [apply Pos.eq_dec|apply Z.eq_dec]. Defined.
Definition is_sextic (cs : list Q) : bool := if list_eq_dec frac_dec cs sextic then true else false.
Lemma is_sextic_ok : forall cs, is_sextic cs = true -> cs = sextic.
Proof. intros cs. unfold is_sextic. destruct (list_eq_dec frac_dec cs sextic); [auto|discriminate]. Qed.

(** (1/8,3/8) | (3/8,5/8) | (5/8,7/8) *)
Definition eighths : list (bset QS) :=
  [BInt (mkIv (N:=QS) (Fin (1#8)%Q) (Fin (3#8)%Q) true true); BInt (mkIv (N:=QS) (Fin (3#8)%Q) (Fin (5#8)%Q) true true);
   BInt (mkIv (N:=QS) (Fin (5#8)%Q) (Fin (7#8)%Q) true true)].
Lemma eighths_built : built ioQ (PUnion eighths).
Proof.
  eapply built_or with
    (s := PUnion [BInt (mkIv (N:=QS) (Fin (1#8)%Q) (Fin (3#8)%Q) true true); BInt (mkIv (N:=QS) (Fin (3#8)%Q) (Fin (5#8)%Q) true true)])
    (t := PB (BInt (mkIv (N:=QS) (Fin (5#8)%Q) (Fin (7#8)%Q) true true))).
  - eapply built_or with (s := PB (BInt (mkIv (N:=QS) (Fin (1#8)%Q) (Fin (3#8)%Q) true true))) (t := PB (BInt (mkIv (N:=QS) (Fin (3#8)%Q) (Fin (5#8)%Q) true true))).
    + eapply built_interval with (a := Fin (1#8)%Q) (b := Fin (3#8)%Q) (lo := true) (ro := true). reflexivity.
    + eapply built_interval with (a := Fin (3#8)%Q) (b := Fin (5#8)%Q) (lo := true) (ro := true). reflexivity.
    + reflexivity.
  - eapply built_interval with (a := Fin (5#8)%Q) (b := Fin (7#8)%Q) (lo := true) (ro := true). reflexivity.
  - reflexivity.
Qed.

Definition po_sextic : polyoracle QS.
Proof.
  refine {|
    po_range := fun cs : list (num QS) => if is_sextic cs then Some (PRIv (N:=QS) (Fin (-32 # 27)%Q) PInf false true) else None;
    po_ineq := fun (cs : list (num QS)) (b : num QS) strict =>
      if is_sextic cs && strict && (if frac_dec b 0 then true else false) then Some (PUnion eighths) else None;
    po_eq := fun _ _ => None; po_nroots := fun _ _ => None |}; try discriminate.
  - intros cs r H y. destruct (is_sextic cs) eqn:E; [|discriminate]. injection H as <-. apply is_sextic_ok in E. subst cs.
    assert (K : (exists x, Rpoly (N:=QS) sextic x = y) <-> exists t, t * (t - 1) ^ 2 * (t - 2) ^ 2 * (t - 3) = y).
    { split.
      - intros (x & Hx). exists (4 * x - 1 / 2). now rewrite <- Hx, sextic_ok.
      - intros (t & Ht). exists ((t + 1 / 2) / 4). rewrite sextic_ok.
        replace (4 * ((t + 1 / 2) / 4) - 1 / 2) with t by field. exact Ht. }
    rewrite K, <- sextic_range. simpl. unfold ele, elt. simpl. unfold Q2R. simpl. split.
    + intros ([H|H] & _); [lra|]. injection H as H. lra.
    + intros H. split; [|exact I]. destruct (Rle_lt_or_eq_dec _ _ H) as [L|L]; [left; lra|right; f_equal; lra].
  - intros cs b strict s H.
    destruct (is_sextic cs) eqn:E; [|discriminate]. apply is_sextic_ok in E. subst cs.
    destruct strict; [|discriminate]. destruct (frac_dec b 0) as [->|]; [|discriminate]. injection H as <-.
    split; [apply (built_wf ioQ), eighths_built|].
    split; [apply Forall_cons; [exact I|apply Forall_cons; [exact I|apply Forall_cons; [exact I|apply Forall_nil]]]|].
    assert (Z : toR (n:=QS) 0%Q = 0) by (simpl; unfold Q2R; simpl; lra).
    intros v. rewrite Z. split.
    + intros (b & [<-|[<-|[<-|[]]]] & Hv); (destruct v as [[|x|]|str]; [destruct Hv as ([] & _)| |destruct Hv as (_ & [])|destruct Hv]);
        exists x; (split; [reflexivity|]); rewrite sextic_ok; apply sextic_negative; destruct Hv as (A & B);
        revert A B; simpl; unfold Q2R; simpl; intros A B; lra.
    + intros (x & -> & H). rewrite sextic_ok in H. apply sextic_negative in H. destruct H as [H|[H|H]];
        [exists (BInt (mkIv (N:=QS) (Fin (1#8)%Q) (Fin (3#8)%Q) true true))
        |exists (BInt (mkIv (N:=QS) (Fin (3#8)%Q) (Fin (5#8)%Q) true true))
        |exists (BInt (mkIv (N:=QS) (Fin (5#8)%Q) (Fin (7#8)%Q) true true))];
        (split; [simpl; tauto|]); simpl; unfold iv_mem; simpl; unfold Q2R; simpl; split; lra.
Defined.

(** P >= 0 for the polynomial P of X *)
Definition sextic_event : tr QS :=
  EBasic KInt (TPoly (TId "X"%string) sextic) (PB (BInt (mkIv (N:=QS) (qn 0) PInf false true))).
(** X uniform on [0,1]: the probability of P >= 0 is returned, 1/4, in one order; in another the
    same call raises *)
Lemma sextic_answer : gives (fresh (logprob io_swap po_sextic 9 (ids_of (lu "X")) (lu "X") sextic_event)) (1#4) = true.
Proof. vm_compute. reflexivity. Qed.
Lemma sextic_failure : asserts (fresh (logprob ioQ po_sextic 9 (ids_of (lu "X")) (lu "X") sextic_event)) = true.
Proof. vm_compute. reflexivity. Qed.
Theorem C61_question_refuted : exists (po : polyoracle QS) (io io' : iterorder QS) (s : spQ) e p,
  wf_spe elaw s /\ is_leaf s = true /\ symbols e = [var_of s] /\ 0 < @toP LQ p /\
  fresh (logprob io po 9 (ids_of s) s e) = Ok p /\ fresh (logprob io' po 9 (ids_of s) s e) = Raise AssertionError.
Proof.
  pose proof sextic_answer as A. pose proof sextic_failure as F.
  destruct (fresh (logprob io_swap po_sextic 9 (ids_of (lu "X")) (lu "X") sextic_event)) as [p|x] eqn:E; [|discriminate A].
  exists po_sextic, io_swap, ioQ, (lu "X"), sextic_event, p.
  split; [exact (lu_wf "X")|]. split; [reflexivity|]. split; [reflexivity|]. split; [|split; [exact E|now apply asserts_ok]].
  apply Qeq_bool_eq in A. change (0 < lq_P p). rewrite lq_P_pos; [|rewrite A; discriminate].
  apply Qeq_eqR in A. rewrite A. unfold Q2R; simpl. lra.
Qed.
Definition all_order_question_properties := C61_question_refuted.
Print Assumptions all_order_question_properties.
