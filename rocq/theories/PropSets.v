(** Properties C01-C09: the algebra of sets (src/sets.py).
    Vocabulary (SetSpec.v): [mem v s] membership of a mathematical value; [finite_val]
    finite reals and strings; [wf] the sets a program can hold; [real_set] sets of
    numbers.  [io] is the (arbitrary) iteration order of frozensets. *)
From Coq Require Import List Bool String Permutation ZArith Reals QArith Lra Lia.
From Verif Require Import Base Num Sets SetSpec SetIv SetProofs SetOr SetOps SetAlg SetBuilt.
Import ListNotations.
Local Open Scope string_scope.

Section Props.
  Context {N : numsys} (io : iterorder N).
  Implicit Types s t r : pset N.

  (** C01 *)
  Theorem C01_intersection_exact : forall s t r, wf s -> wf t -> pand io s t = Ok r ->
    forall v, finite_val v -> (mem v r <-> mem v s /\ mem v t).
  Proof.
    intros s t r Ws Wt H v F. apply pand_spec in H; auto. destruct H as (_ & A & B & _).
    split; [apply A|intros []; now apply B].
  Qed.
  (** infinite points are never invented *)
  Theorem C01_intersection_sound : forall s t r, wf s -> wf t -> pand io s t = Ok r ->
    forall v, mem v r -> mem v s /\ mem v t.
  Proof. intros s t r Ws Wt H. apply pand_spec in H; auto. apply H. Qed.

  (** C02 *)
  Theorem C02_union_exact : forall s t r, wf s -> wf t -> por io s t = Ok r ->
    forall v, finite_val v -> (mem v r <-> mem v s \/ mem v t).
  Proof.
    intros s t r Ws Wt H v F. apply por_spec in H; auto. destruct H as (_ & A & B & _).
    split; auto.
  Qed.
  Theorem C02_union_sound : forall s t r, wf s -> wf t -> por io s t = Ok r ->
    forall v, mem v r -> mem v s \/ mem v t.
  Proof. intros s t r Ws Wt H. apply por_spec in H; auto. apply H. Qed.
  (** sets of numbers can always be joined *)
  Theorem C02_union_total : forall s t, wf s -> wf t -> real_set s -> real_set t ->
    exists r, por io s t = Ok r.
  Proof. exact (por_total io). Qed.

  (** C03 *)
  Theorem C03_complement_real : forall s r, wf s -> real_set s -> pinv io s = Ok r ->
    real_set r /\ (forall v, mem v r -> ~ mem v s) /\
    (forall x : R, mem (RNum (Fin x)) r <-> ~ mem (RNum (Fin x)) s).
  Proof.
    intros s r W R H. apply pinv_real_spec in H; auto. destruct H as (_ & A & B & C).
    split; [exact A|]. split; [exact B|]. intros x. split; auto.
  Qed.
  Theorem C03_complement_nominal : forall s, wf s -> nominal_set s ->
    exists r, pinv io s = Ok r /\ forall str, mem (RStr str) r <-> ~ mem (RStr str) s.
  Proof.
    intros [|[vs f| |]|u] W Hn; try (now destruct Hn).
    destruct (pinv_nom_ok io vs f W) as (r & E & _ & _ & M). exists r. split; [exact E|exact M].
  Qed.

  (** C04: every set reachable by constructors and operators is well formed *)
  Theorem C04_well_formed : forall s, built io s -> wf s.
  Proof. exact (built_wf io). Qed.

  (** C05, the part that holds: basic sets never fail *)
  Theorem C05_basic_intersection_total : forall b c, wf (PB b) -> wf (PB c) ->
    exists r, pand io (PB b) (PB c) = Ok r.
  Proof. intros b c Wb Wc. destruct (and_bb_ok b c Wb Wc) as (r & E & _). exists r. exact E. Qed.
  Theorem C05_interval_complement_total : forall i, wf (PB (BInt i)) ->
    exists r, pinv io (PB (BInt i)) = Ok r.
  Proof. intros i W. destruct (inv_iv_ok io i W) as (r & E & _). exists r. exact E. Qed.
  Theorem C05_finite_complement_total_iff : forall vs, wf (PB (BReal vs)) ->
    ((exists r, pinv io (PB (BReal vs)) = Ok r) <-> (forall x, In x vs -> exists a, x = Fin a)).
  Proof.
    intros vs W.
    assert (E : (forall x, In x vs -> exists a, x = Fin a) <-> all_fin vs).
    { unfold all_fin. rewrite Forall_forall. split; intros H x Hx.
      - destruct (H x Hx) as (a & ->). unfold pos. apply ord_Fin.
      - apply H in Hx. destruct x as [|a|]; [|eauto|]; exfalso; unfold pos in Hx; simpl in Hx; lra. }
    rewrite E. split.
    - intros (r & H). simpl in H.
      assert (D : all_fin vs \/ ~ all_fin vs).
      { clear. induction vs as [|x vs IH]; [left; constructor|]. unfold all_fin in *.
        destruct (Rlt_dec (-1) (pos x)), (Rlt_dec (pos x) 1), IH;
          try (left; constructor; auto; lra); right; intros Q; inversion Q; subst; tauto. }
      destruct D as [D|D]; auto. rewrite inv_real_inf in H; auto. discriminate.
    - intros F. destruct (inv_real_ok io vs W F) as (r & H & _). exists r. exact H.
  Qed.

  (** C06 *)
  Theorem C06_nonempty_has_member : forall s, wf s -> s <> PEmpty -> exists v, mem v s.
  Proof.
    intros [|b|u] W H; [tauto|now apply b_inhabited|].
    destruct W as (W & L & _). destruct u as [|b u]; [simpl in L; lia|].
    inversion W; subst. destruct (b_inhabited b) as (v & Hv); auto. exists v, b. simpl; auto.
  Qed.
  Theorem C06_intersection_empty : forall s t r, wf s -> wf t -> pand io s t = Ok r ->
    (r = PEmpty -> forall v, finite_val v -> ~ (mem v s /\ mem v t)) /\
    (r <> PEmpty -> exists v, mem v s /\ mem v t).
  Proof.
    intros s t r Ws Wt H. split.
    - intros -> v F Q. apply (C01_intersection_exact s t PEmpty Ws Wt H v F) in Q. exact Q.
    - intros NE. pose proof (pand_spec io s t r Ws Wt H) as (W & A & _).
      destruct (C06_nonempty_has_member r W NE) as (v & Hv). exists v. now apply A.
  Qed.
End Props.

(** C07 *)
Theorem C07_order_independent_and : forall (N : numsys) (io io' : iterorder N) s t r r',
  wf s -> wf t -> pand io s t = Ok r -> pand io' s t = Ok r' ->
  forall v, finite_val v -> (mem v r <-> mem v r').
Proof.
  intros N io io' s t r r' Ws Wt H H' v F.
  rewrite (C01_intersection_exact io s t r Ws Wt H v F).
  now rewrite (C01_intersection_exact io' s t r' Ws Wt H' v F).
Qed.
Theorem C07_order_independent_or : forall (N : numsys) (io io' : iterorder N) s t r r',
  wf s -> wf t -> por io s t = Ok r -> por io' s t = Ok r' ->
  forall v, finite_val v -> (mem v r <-> mem v r').
Proof.
  intros N io io' s t r r' Ws Wt H H' v F.
  rewrite (C02_union_exact io s t r Ws Wt H v F).
  now rewrite (C02_union_exact io' s t r' Ws Wt H' v F).
Qed.
Theorem C07_order_independent_inv : forall (N : numsys) (io io' : iterorder N) s r r',
  wf s -> real_set s -> pinv io s = Ok r -> pinv io' s = Ok r' ->
  forall x : R, mem (RNum (Fin x)) r <-> mem (RNum (Fin x)) r'.
Proof.
  intros N io io' s r r' Ws Rs H H' x.
  destruct (C03_complement_real io s r Ws Rs H) as (_ & _ & A).
  destruct (C03_complement_real io' s r' Ws Rs H') as (_ & _ & B).
  now rewrite A, B.
Qed.

Section Props2.
  Context {N : numsys} (io : iterorder N).
  Implicit Types s t r : pset N.

  (** C08: [x in S] for a number x and a set of numbers S always answers, correctly;
      for a string, whenever it answers (it raises TypeError on intervals) *)
  Theorem C08_contains_number : forall s (x : ext (num N)), wf s -> real_set s ->
    exists b, contains io (VNum x) s = Ok b /\ (b = true <-> mem (RNum (eR x)) s).
  Proof.
    intros s x W R. destruct (contains_num_total io x s) as (b & E). exists b. split; auto.
    now apply (contains_ok io (VNum x) s b W R).
  Qed.
  Theorem C08_contains_string : forall s str b, wf s -> contains io (VStr str) s = Ok b ->
    (b = true <-> mem (RStr str) s).
  Proof. intros s str b W H. exact (contains_ok io (VStr str) s b W I H). Qed.

  (** C09 *)
  Theorem C09_equal_members : forall s t, peqb s t = true -> forall v, mem v s <-> mem v t.
  Proof. exact peqb_mem. Qed.
  Theorem C09_equal_hash_partial : forall (H : pyhash N) s t, wf s -> wf t -> real_set s ->
    peqb s t = true -> phash io H s = phash io H t.
  Proof. exact (peqb_hash io). Qed.
End Props2.

(** ** Concrete cases: the hypotheses are met *)
Definition ex_a : pset QS := iv (qn 0) (qn 1) false false.
Definition ex_b : pset QS := iv (qn (1#2)) PInf false true.

Lemma ex_built_iv : forall a b lo ro i, Interval_ (N:=QS) a b lo ro = Ok i -> wf (PB (BInt i)).
Proof. intros. now apply Interval_wf in H. Qed.
Example ex_a_wf : wf ex_a.
Proof. refine (ex_built_iv (qn 0) (qn 1) false false _ _). reflexivity. Qed.
Example ex_b_wf : wf ex_b.
Proof. refine (ex_built_iv (qn (1#2)) PInf false true _ _). reflexivity. Qed.
Example ex_and : pand ioQ ex_a ex_b = Ok (iv (qn (1#2)) (qn 1) false false).
Proof. reflexivity. Qed.
Example ex_or : por ioQ ex_a ex_b = Ok (iv (qn 0) PInf false true).
Proof. reflexivity. Qed.
Example ex_inv : pinv ioQ ex_a = Ok (PUnion [BInt (mkIv NInf (qn 0) true true); BInt (mkIv (qn 1) PInf true true)]).
Proof. reflexivity. Qed.
(** FiniteReal(1, 2, inf) | Interval.open(1, 2) | FiniteNominal('a') *)
Example ex_mixed : exists u, built ioQ (PUnion u) /\ List.length u = 3%nat.
Proof.
  assert (A : built ioQ (iv (qn 1) (qn 2) false true)).
  { eapply built_interval with (a := qn 1) (b := qn 2) (lo := false) (ro := true). reflexivity. }
  assert (B : built ioQ (fr [qn 2; qn 5])).
  { eapply built_real with (vs := [qn 2; qn 5]). reflexivity. }
  assert (C : built ioQ (fn ["a"])).
  { eapply built_nominal with (vs := ["a"]) (b := None). reflexivity. }
  assert (D : built ioQ (PUnion [BReal [qn 5]; BInt (mkIv (qn 1) (qn 2) false false)])).
  { eapply built_or; [exact A|exact B|]. reflexivity. }
  eexists. split; [eapply built_or; [exact D|exact C|reflexivity]|reflexivity].
Qed.
Example ex_two_orders :
  match pinv ioQ (PUnion [BInt (mkIv (qn 0) (qn 1) true true); BInt (mkIv (qn 2) (qn 3) true true)]),
        pinv (io_rev QS) (PUnion [BInt (mkIv (qn 0) (qn 1) true true); BInt (mkIv (qn 2) (qn 3) true true)]) with
  | Ok r, Ok r' => r <> PEmpty /\ r' <> PEmpty
  | _, _ => False
  end.
Proof. split; discriminate. Qed.
Example ex_eq : peqb (fr [qn 1; qn 2]) (fr [qn 2; qn 1]) = true.
Proof. reflexivity. Qed.

(** ** Refutations: where the code breaks the English property *)

(** Two closed intervals and a third that touches both: ([0,1] | [2,3]) & [1,2] fails
    although the intersection is {1, 2}. *)
Definition touch_u : list (bset QS) :=
  [BInt (mkIv (qn 0) (qn 1) false false); BInt (mkIv (qn 2) (qn 3) false false)].
Lemma touch_built : built ioQ (PUnion touch_u).
Proof.
  eapply built_or with (s := iv (qn 0) (qn 1) false false) (t := iv (qn 2) (qn 3) false false).
  - eapply built_interval with (a := qn 0) (b := qn 1) (lo := false) (ro := false). reflexivity.
  - eapply built_interval with (a := qn 2) (b := qn 3) (lo := false) (ro := false). reflexivity.
  - reflexivity.
Qed.
Theorem C05_intersection_total_refuted : exists (io : iterorder QS) s t,
  wf s /\ wf t /\ pand io s t = Raise AssertionError.
Proof.
  exists ioQ, (PUnion touch_u), (iv (qn 1) (qn 2) false false). split; [|split].
  - apply (built_wf ioQ). apply touch_built.
  - refine (ex_built_iv (qn 1) (qn 2) false false _ _). reflexivity.
  - reflexivity.
Qed.
(** ~~FiniteReal(0, 1) fails *)
Theorem C05_complement_total_refuted : exists (io : iterorder QS) s t,
  wf s /\ pinv io s = Ok t /\ wf t /\ pinv io t = Raise AssertionError.
Proof.
  exists ioQ, (fr [qn 0; qn 1]). eexists.
  assert (W : wf (fr [qn 0; qn 1])).
  { apply (FiniteReal_wf [qn 0; qn 1]). reflexivity. }
  assert (E : pinv ioQ (fr [qn 0; qn 1]) = Ok (PUnion
    [BInt (mkIv NInf (qn 0) true true); BInt (mkIv (qn 0) (qn 1) true true); BInt (mkIv (qn 1) PInf true true)])).
  { reflexivity. }
  split; [exact W|]. split; [exact E|]. split; [eapply pinv_wf; eauto|].
  reflexivity.
Qed.
(** a union of strings and isolated numbers cannot be joined with another number *)
Theorem C02_union_total_refuted : exists (io : iterorder QS) s t,
  wf s /\ wf t /\ por io s t = Raise IndexError.
Proof.
  exists ioQ, (PUnion [BNom ["a"] None; BReal [qn 1]]), (fr [qn 2]). split; [|split].
  - apply (built_wf ioQ). eapply built_or with (s := fn ["a"]) (t := fr [qn 1]).
    + eapply built_nominal with (vs := ["a"]) (b := None). reflexivity.
    + eapply built_real with (vs := [qn 1]). reflexivity.
    + reflexivity.
  - apply (FiniteReal_wf [qn 2]). reflexivity.
  - reflexivity.
Qed.
(** infinite points are lost: FiniteReal(inf) | Interval(0, inf) *)
Theorem C02_union_infinite_refuted : exists (io : iterorder QS) s t r,
  wf s /\ wf t /\ por io s t = Ok r /\ mem (RNum PInf) s /\ ~ mem (RNum PInf) r.
Proof.
  exists ioQ, (fr [PInf]), (iv (qn 0) PInf false true), (iv (qn 0) PInf false true).
  split; [|split; [|split; [|split]]].
  - apply (FiniteReal_wf [PInf : ext (num QS)]). reflexivity.
  - refine (ex_built_iv (qn 0) PInf false true _ _). reflexivity.
  - reflexivity.
  - exists PInf. simpl; auto.
  - simpl. unfold iv_mem. simpl. tauto.
Qed.
(** the complement of a set with both strings and numbers is empty *)
Theorem C03_complement_mixed_refuted : exists (io : iterorder QS) s,
  wf s /\ pinv io s = Ok PEmpty /\ ~ mem (RNum (Fin 3%R)) s /\ ~ mem (RStr "b") s.
Proof.
  exists ioQ, (PUnion [BNom ["a"] None; BReal [qn 1]]). split; [|split; [|split]].
  - apply (built_wf ioQ). eapply built_or with (s := fn ["a"]) (t := fr [qn 1]).
    + eapply built_nominal with (vs := ["a"]) (b := None). reflexivity.
    + eapply built_real with (vs := [qn 1]). reflexivity.
    + reflexivity.
  - reflexivity.
  - intros (b & [<-|[<-|[]]] & H); [exact H|]. destruct H as (y & [<-|[]] & H). cbn in H.
    injection H. unfold Q2R. simpl. lra.
  - intros (b & [<-|[<-|[]]] & H); [|exact H]. simpl in H. destruct H as [H|[]]. discriminate.
Qed.
(** a number is "in" the complement of a set of strings *)
Theorem C08_number_in_nominal_refuted : exists (io : iterorder QS) s x,
  wf s /\ contains io (VNum x) s = Ok true /\ ~ mem (RNum (eR x)) s /\
  pand io s (fr [x]) = Ok PEmpty.
Proof.
  exists ioQ, (PB (BNom ["a"] (Some true))), (qn 1). split; [|split; [|split]].
  - apply (FiniteNominal_wf ["a"] (Some true)). reflexivity.
  - reflexivity.
  - simpl. tauto.
  - reflexivity.
Qed.
(** equal sets of strings with different hashes: S and S | S for S = FiniteNominal('a').
    The hash of the stored flag distinguishes None from False. *)
Definition flag_hash : pyhash QS.
Proof.
  refine {| h_empty := 0%Z; h_nom := fun _ b => match b with None => 0%Z | Some _ => 1%Z end;
            h_real := fun _ => 0%Z; h_int := fun _ _ _ _ => 0%Z; h_union := fun _ => 0%Z |}; reflexivity.
Defined.
Theorem C09_equal_hash_refuted : exists (io : iterorder QS) (H : pyhash QS) s t,
  wf s /\ por io s s = Ok t /\ peqb s t = true /\ phash io H s <> phash io H t.
Proof.
  exists ioQ, flag_hash, (fn ["a"]). eexists.
  split; [apply (FiniteNominal_wf ["a"] None); reflexivity|].
  split; [reflexivity|]. split; [reflexivity|]. discriminate.
Qed.

(** The axioms used by any theorem of this file *)
Definition all_set_properties :=
  (@C01_intersection_exact,
   @C01_intersection_sound,
   @C02_union_exact,
   @C02_union_sound,
   @C02_union_total,
   @C03_complement_real,
   @C03_complement_nominal,
   @C04_well_formed,
   @C05_basic_intersection_total,
   @C05_interval_complement_total,
   @C05_finite_complement_total_iff,
   @C06_nonempty_has_member,
   @C06_intersection_empty,
   @C07_order_independent_and,
   @C07_order_independent_or,
   @C07_order_independent_inv,
   @C08_contains_number,
   @C08_contains_string,
   @C09_equal_members,
   @C09_equal_hash_partial,
   @C05_intersection_total_refuted,
   @C05_complement_total_refuted,
   @C02_union_total_refuted,
   @C02_union_infinite_refuted,
   @C03_complement_mixed_refuted,
   @C08_number_in_nominal_refuted,
   @C09_equal_hash_refuted).
Print Assumptions all_set_properties.
