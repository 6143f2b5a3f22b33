(** Cases and refutations for C61 (PropOrder.v), and the axioms the theorems rest on. *)
From Coq Require Import List Bool String ZArith Reals QArith Permutation.
From Verif Require Import Base Num Sets SetSpec SetBuilt PropSets PropSetsTotal SetsTotalEx PropOrder.
Import ListNotations.

(** an order that visits the third of three elements before the second *)
Definition swap3 {A} (l : list A) : list A := match l with [a; b; c] => [a; c; b] | _ => l end.
Lemma swap3_perm : forall A (l : list A), Permutation l (swap3 l).
Proof.
  intros A [|a [|b [|c [|d l]]]]; simpl; auto. apply perm_skip, perm_swap.
Qed.
Definition io_swap : iterorder QS :=
  {| it_iv := fun l => l; it_iv_perm := fun l => Permutation_refl l; it_bs := swap3; it_bs_perm := swap3_perm _ |}.

Example C61_case :
  returns (pand ioQ (PUnion touch_u) (PUnion two_rays)) <-> returns (pand io_swap (PUnion touch_u) (PUnion two_rays)).
Proof.
  apply C61_intersection; [apply touch_wf|apply two_rays_wf|].
  left. apply Forall_cons; [exact I|apply Forall_cons; [exact I|apply Forall_nil]].
Qed.
Example C61_complement_case : returns (pinv ioQ (PUnion closed_u)) <-> returns (pinv (io_rev QS) (PUnion closed_u)).
Proof.
  apply C61_complement_partial; [apply (built_wf ioQ), closed_built|].
  apply Forall_cons; [|apply Forall_cons; [|apply Forall_cons; [exact I|apply Forall_nil]]]; split; discriminate.
Qed.

(** ~((0,1) | (1,2) | (2,3)): when the middle interval is visited last the complement is
    returned, and when the intervals are visited from left to right it is not *)
Definition open_u : list (bset QS) :=
  [BInt (mkIv (qn 0) (qn 1) true true); BInt (mkIv (qn 1) (qn 2) true true); BInt (mkIv (qn 2) (qn 3) true true)].
Lemma open_built : built ioQ (PUnion open_u).
Proof.
  eapply built_or with
    (s := PUnion [BInt (mkIv (qn 0) (qn 1) true true); BInt (mkIv (qn 1) (qn 2) true true)])
    (t := PB (BInt (mkIv (qn 2) (qn 3) true true))).
  - eapply built_or with (s := PB (BInt (mkIv (qn 0) (qn 1) true true))) (t := PB (BInt (mkIv (qn 1) (qn 2) true true))).
    + eapply built_interval with (a := qn 0) (b := qn 1) (lo := true) (ro := true). reflexivity.
    + eapply built_interval with (a := qn 1) (b := qn 2) (lo := true) (ro := true). reflexivity.
    + reflexivity.
  - eapply built_interval with (a := qn 2) (b := qn 3) (lo := true) (ro := true). reflexivity.
  - reflexivity.
Qed.
Theorem C61_complement_refuted : exists (io io' : iterorder QS) s, wf s /\ real_set s /\
  returns (pinv io s) /\ pinv io' s = Raise AssertionError.
Proof.
  exists io_swap, ioQ, (PUnion open_u). split; [apply (built_wf ioQ), open_built|].
  split; [apply Forall_cons; [exact I|apply Forall_cons; [exact I|apply Forall_cons; [exact I|apply Forall_nil]]]|].
  split; [eexists; reflexivity|reflexivity].
Qed.

(** two unions that both have strings: ({'a'} | {1, 2}) & ({'a'} | {1} | [2, 3]) is returned or
    fails, depending on the order *)
Theorem C61_mixed_refuted : exists (io io' : iterorder QS) s t, wf s /\ wf t /\
  returns (pand io s t) /\ pand io' s t = Raise IndexError.
Proof.
  exists (io_rev QS), ioQ, (PUnion mixed_u), (PUnion mixed_w).
  split; [apply (built_wf ioQ), mixed_u_built|]. split; [apply (built_wf ioQ), mixed_w_built|].
  split; [eexists; reflexivity|reflexivity].
Qed.

Definition all_order_properties :=
  (@C61_intersection, @C61_union, @C61_complement_partial, C61_complement_refuted, C61_mixed_refuted).
Print Assumptions all_order_properties.
