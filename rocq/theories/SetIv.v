(** Comparisons of endpoints, and intersection of two intervals. *)
From Coq Require Import List Bool String Permutation ZArith Reals Lra Lia.
From Verif Require Import Base Num Sets SetSpec.
Import ListNotations.
Local Open Scope R_scope.

  Definition Reqb (p q : R) := if Req_EM_T p q then true else false.
  Definition Rleb (p q : R) := if Rle_dec p q then true else false.
  (** split on every comparison, pruning with linear arithmetic *)
  Ltac cmp1 :=
    match goal with
    | |- context [Rlt_dec ?x ?y] => destruct (Rlt_dec x y); try (exfalso; lra)
    | |- context [Req_EM_T ?x ?y] => destruct (Req_EM_T x y); try (exfalso; lra)
    | |- context [Rle_dec ?x ?y] => destruct (Rle_dec x y); try (exfalso; lra)
    end.
  Ltac cmp := repeat (cmp1; cbn [andb orb negb bind passert implb]).
  Ltac unR := unfold Rltb, Reqb, Rleb in *.

  Ltac spec_flags :=
    repeat match goal with H : ?x = ?x -> _ |- _ => specialize (H eq_refl)
      | H : true = false -> _ |- _ => clear H end.
  (** decide every comparison from the order already fixed in the context *)
  Ltac dec1 :=
    match goal with
    | |- context [Rlt_dec ?x ?y] =>
        first [ destruct (Rlt_dec x y); [|exfalso; lra] | destruct (Rlt_dec x y); [exfalso; lra|] ]
    | |- context [Req_EM_T ?x ?y] =>
        first [ destruct (Req_EM_T x y); [|exfalso; lra] | destruct (Req_EM_T x y); [exfalso; lra|] ]
    | |- context [Rle_dec ?x ?y] =>
        first [ destruct (Rle_dec x y); [|exfalso; lra] | destruct (Rle_dec x y); [exfalso; lra|] ]
    end.
  Ltac tri x y := destruct (Rtotal_order x y) as [?|[?|?]]; try (exfalso; lra).


Section Proofs.
  Context {N : numsys}.
  Notation enum := (ext (num N)).
  Implicit Types (a b x y : enum) (i j : interval N).

  (** ** Comparisons as comparisons of positions *)
  
  Lemma eltb_R : forall x y, eltb x y = Rltb (pos x) (pos y).
  Proof.
    intros. unfold Rltb. destruct (Rlt_dec _ _); [now apply eltb_pos|apply eltb_pos_f; lra].
  Qed.
  Lemma eeqb_R : forall x y, eeqb x y = Reqb (pos x) (pos y).
  Proof.
    intros. unfold Reqb. destruct (Req_EM_T _ _); [now apply eeqb_pos|now apply eeqb_pos_f].
  Qed.
  Lemma eleb_R : forall x y, eleb x y = Rleb (pos x) (pos y).
  Proof.
    intros. unfold Rleb. destruct (Rle_dec _ _); [now apply eleb_pos|apply eleb_pos_f; lra].
  Qed.
  Lemma is_ninf_R : forall x, is_ninf x = Reqb (pos x) (-1).
  Proof.
    intros. unfold Reqb. destruct (Req_EM_T _ _); [now apply is_ninf_pos|].
    apply is_ninf_pos_f. generalize (pos_bound x); lra.
  Qed.
  Lemma is_pinf_R : forall x, is_pinf x = Reqb (pos x) 1.
  Proof.
    intros. unfold Reqb. destruct (Req_EM_T _ _); [now apply is_pinf_pos|].
    apply is_pinf_pos_f. generalize (pos_bound x); lra.
  Qed.

  Definition pm (p A B : R) (lo ro : bool) : Prop :=
    (if lo then A < p else A <= p) /\ (if ro then p < B else p <= B).

  Lemma iv_mem_pm : forall v i, iv_mem v i <-> pm (ord v) (pos (iv_a i)) (pos (iv_b i)) (iv_lo i) (iv_ro i).
  Proof.
    intros v [a b lo ro]. unfold iv_mem, pm; simpl.
    destruct lo, ro; rewrite ?ord_lt, ?ord_le; reflexivity.
  Qed.

  Lemma wf_iv_pos : forall i, wf_iv i <->
    pos (iv_a i) < pos (iv_b i) /\ (pos (iv_a i) = -1 -> iv_lo i = true) /\
    (pos (iv_b i) = 1 -> iv_ro i = true).
  Proof.
    intros [a b lo ro]. unfold wf_iv; simpl. rewrite ord_lt. fold (pos a) (pos b).
    assert (Ha : a = NInf <-> pos a = -1).
    { rewrite <- is_ninf_pos. destruct a; simpl; easy. }
    assert (Hb : b = PInf <-> pos b = 1).
    { rewrite <- is_pinf_pos. destruct b; simpl; easy. }
    rewrite Ha, Hb. reflexivity.
  Qed.

  Lemma in_sing : forall v a, bmem v (BReal [a]) <-> match v with RNum x => ord x = pos a | _ => False end.
  Proof.
    intros [x|s] a; simpl; [|tauto]. split.
    - intros (y & [->|[]] & <-). reflexivity.
    - intros H. exists a. split; auto. now apply ord_inj.
  Qed.

  Definition not_union (s : pset N) : Prop := match s with PUnion _ => False | _ => True end.

  Lemma Interval_R : forall a b lo ro, Interval_ a b lo ro =
    if Rlt_dec (pos a) (pos b) then
      Ok (mkIv a b (lo || Reqb (pos a) (-1)) (ro || Reqb (pos b) 1))
    else Raise AssertionError.
  Proof.
    intros. unfold Interval_. rewrite eltb_R, is_ninf_R, is_pinf_R. unfold Rltb.
    now destruct (Rlt_dec _ _).
  Qed.

  Lemma Interval_ok : forall a b lo ro, pos a < pos b -> exists i, Interval_ a b lo ro = Ok i /\
    iv_a i = a /\ iv_b i = b /\ iv_lo i = (lo || Reqb (pos a) (-1))%bool /\
    iv_ro i = (ro || Reqb (pos b) 1)%bool /\ wf_iv i.
  Proof.
    intros. rewrite Interval_R. destruct (Rlt_dec _ _); [|lra].
    eexists. repeat split; simpl; auto.
    - rewrite ord_lt. assumption.
    - intros ->. rewrite pos_NInf. unfold Reqb. destruct (Req_EM_T _ _); [now rewrite orb_true_r|lra].
    - intros ->. rewrite pos_PInf. unfold Reqb. destruct (Req_EM_T _ _); [now rewrite orb_true_r|lra].
  Qed.

  Lemma iv_contains_R : forall x i, iv_contains x i = true <->
    pm (pos x) (pos (iv_a i)) (pos (iv_b i)) (iv_lo i) (iv_ro i).
  Proof.
    intros x [a b lo ro]. unfold iv_contains, pm; simpl. rewrite andb_true_iff.
    destruct lo, ro; rewrite ?eltb_pos, ?eleb_pos; reflexivity.
  Qed.

  Definition pmb (p A B : R) (lo ro : bool) : bool :=
    (if lo then Rltb A p else Rleb A p) && (if ro then Rltb p B else Rleb p B).
  Lemma iv_contains_pmb : forall x i,
    iv_contains x i = pmb (pos x) (pos (iv_a i)) (pos (iv_b i)) (iv_lo i) (iv_ro i).
  Proof.
    intros x [a b lo ro]. unfold iv_contains, pmb; simpl.
    destruct lo, ro; now rewrite ?eltb_R, ?eleb_R.
  Qed.

  Lemma iv_eqb_R : forall i j, iv_eqb i j =
    (Reqb (pos (iv_a i)) (pos (iv_a j)) && Reqb (pos (iv_b i)) (pos (iv_b j)) &&
     Bool.eqb (iv_lo i) (iv_lo j) && Bool.eqb (iv_ro i) (iv_ro j))%bool.
  Proof. intros. unfold iv_eqb. now rewrite !eeqb_R. Qed.


  Ltac mem_solve :=
    intros v; cbn [mem]; rewrite ?in_sing; simpl; destruct v as [v|str]; simpl;
    [rewrite ?iv_mem_pm; unfold pm; simpl; cmp; try lra | try tauto].

  Lemma wf_iv_cases : forall i, wf_iv i ->
    pos (iv_a i) < pos (iv_b i) /\ -1 <= pos (iv_a i) <= 1 /\ -1 <= pos (iv_b i) <= 1 /\
    (iv_lo i = false -> -1 < pos (iv_a i)) /\ (iv_ro i = false -> pos (iv_b i) < 1).
  Proof.
    intros i H. apply wf_iv_pos in H. destruct H as (H & Hl & Hr).
    generalize (pos_bound (iv_a i)), (pos_bound (iv_b i)). intros Ba Bb.
    split; [lra|]. split; [lra|]. split; [lra|]. split; intros E.
    - destruct (Req_dec (pos (iv_a i)) (-1)) as [E'|]; [|lra]. apply Hl in E'. congruence.
    - destruct (Req_dec (pos (iv_b i)) 1) as [E'|]; [|lra]. apply Hr in E'. congruence.
  Qed.

  Ltac wf_solve := simpl; try exact I;
    try (split; [repeat constructor; simpl; tauto|discriminate]);
    apply wf_iv_pos; simpl; unR; cmp; repeat split; intros; try lra; reflexivity.
  Lemma iv_and_ok : forall (s x : interval N), wf_iv s -> wf_iv x ->
    exists r, iv_and s x = Ok r /\ wf r /\ not_union r /\ real_set r /\
      (forall v, mem v r <-> bmem v (BInt s) /\ bmem v (BInt x)).
  Proof.
    intros [a b lo ro] [c d lo' ro'] Hs Hx.
    apply wf_iv_cases in Hs. apply wf_iv_cases in Hx. simpl in Hs, Hx.
    destruct Hs as (Hab & Ba & Bb & Lo & Ro), Hx as (Hcd & Bc & Bd & Lo' & Ro').
    unfold iv_and. rewrite iv_eqb_R, !iv_contains_pmb, !eeqb_R, !Interval_R. unfold pmb. simpl.
    unR.
    destruct lo, ro, lo', ro'; simpl; spec_flags; cmp;
      (eexists; split; [reflexivity|]);
      (split; [wf_solve|]);
      (split; [exact I|]); (split; [exact I|]);
      mem_solve.
  Qed.

End Proofs.
