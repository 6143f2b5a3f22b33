(** Cases of the theorems of PropSetsTotal.v, and the axioms they rest on. *)
From Coq Require Import List Bool String ZArith Reals QArith Lra Lia.
From Verif Require Import Base Num Sets SetSpec SetBuilt PropSets PropSetsTotal.
Import ListNotations.

Ltac qnums := unfold iv_mem, ele, elt, eR, qn; simpl; unfold Q2R; simpl.

Lemma touch_wf : wf (N:=QS) (PUnion touch_u).
Proof. apply (built_wf ioQ), touch_built. Qed.

(** ([0,1] | [2,3]) & [1/2, 2]: one part is met in a range, the other in the point 2 *)
Definition half_two : bset QS := BInt (mkIv (N:=QS) (Fin (1 # 2)%Q) (qn 2) false false).
Lemma half_two_wf : wf_b (N:=QS) half_two.
Proof. split; [qnums; lra|]. split; discriminate. Qed.

Lemma left_range : ~ isolated (N:=QS) (BInt (mkIv (qn 0) (qn 1) false false)) half_two.
Proof.
  intros (_ & l & Hl).
  destruct (range_avoids l (1 / 2)%R 1%R) as (a & b & B & A); [lra|].
  apply (A ((a + b) / 2)%R); [lra|]. apply Hl; simpl; unfold iv_mem; simpl; split; left; qnums; lra.
Qed.
Example C05_exactly_case : exists r, pand ioQ (PUnion touch_u) (PB half_two) = Ok r.
Proof.
  apply (C05_intersection_exactly ioQ touch_u half_two touch_wf half_two_wf).
  intros b b' [<-|[<-|[]]] [<-|[<-|[]]] I I'; auto.
  - now apply left_range in I.
  - now apply left_range in I'.
Qed.

(** ([0,1] | [2,3]) & [1,2]: both parts are met in a point, and nothing is returned *)
Definition one_two : bset QS := BInt (mkIv (qn 1) (qn 2) false false).
Example C05_exactly_fails : ~ exists r, pand ioQ (PUnion touch_u) (PB one_two) = Ok r.
Proof.
  intros H.
  assert (W : wf_b one_two) by (split; [qnums; lra|]; split; discriminate).
  pose proof (proj1 (C05_intersection_exactly ioQ touch_u one_two touch_wf W) H
    (BInt (mkIv (qn 0) (qn 1) false false)) (BInt (mkIv (qn 2) (qn 3) false false))) as E.
  assert (K : BInt (mkIv (qn 0) (qn 1) false false) = BInt (mkIv (N:=QS) (qn 2) (qn 3) false false)).
  { apply E; [now left|right; now left| |].
    - split.
      + exists (RNum (Fin 1%R)). split; split; qnums; try (left; lra); right; f_equal; lra.
      + exists [RNum (Fin 1%R)]. intros [[|x|]|str] Ha Hc; [| | |destruct Ha]; destruct Ha as (A & B), Hc as (C & D).
        all: revert A B C D; qnums; intros A B C D.
        all: try (destruct A as [[]|A]; discriminate); try (destruct B as [[]|B]; discriminate).
        left. f_equal. f_equal.
        assert (x <= 1)%R by (destruct B as [B|B]; [lra|injection B as B; lra]).
        assert (1 <= x)%R by (destruct C as [C|C]; [lra|injection C as C; lra]). lra.
    - split.
      + exists (RNum (Fin 2%R)). split; split; qnums; try (left; lra); right; f_equal; lra.
      + exists [RNum (Fin 2%R)]. intros [[|x|]|str] Ha Hc; [| | |destruct Ha]; destruct Ha as (A & B), Hc as (C & D).
        all: revert A B C D; qnums; intros A B C D.
        all: try (destruct A as [[]|A]; discriminate); try (destruct B as [[]|B]; discriminate).
        left. f_equal. f_equal.
        assert (2 <= x)%R by (destruct A as [A|A]; [lra|injection A as A; lra]).
        assert (x <= 2)%R by (destruct D as [D|D]; [lra|injection D as D; lra]). lra. }
  discriminate.
Qed.

(** ([0,1] | [2,3]) & (1/2, 5/2) *)
Example C05_open_case :
  exists r, pand ioQ (PUnion touch_u) (PB (BInt (mkIv (N:=QS) (Fin (1 # 2)%Q) (Fin (5 # 2)%Q) true true))) = Ok r.
Proof.
  apply C05_intersection_open_total; [apply touch_wf| |reflexivity|reflexivity].
  split; [qnums; lra|]. split; discriminate.
Qed.

(** two unions: ([0,1] | [2,3]) & ((-oo,1/2) | (5/2,oo)) *)
Definition two_rays : list (bset QS) :=
  [BInt (mkIv (N:=QS) NInf (Fin (1 # 2)%Q) true true); BInt (mkIv (N:=QS) (Fin (5 # 2)%Q) PInf true true)].
Lemma two_rays_wf : wf (N:=QS) (PUnion two_rays).
Proof.
  split; [|split; [simpl; lia|split; [simpl; lia|split; [simpl; lia|]]]].
  - apply Forall_cons; [|apply Forall_cons; [|apply Forall_nil]]; (split; [exact I|split; reflexivity]) || (split; [exact I|]; split; [discriminate|reflexivity]) || (split; [exact I|]; split; [reflexivity|discriminate]).
  - constructor; [|constructor; [constructor|constructor]]. apply Forall_cons; [|apply Forall_nil].
    intros [[|x|]|str] Ha Hc; [| | |destruct Ha]; destruct Ha as (A & B), Hc as (C & D); revert A B C D; qnums; try tauto. intros; lra.
Qed.
Example C05_unions_case : exists r, pand ioQ (PUnion touch_u) (PUnion two_rays) = Ok r.
Proof.
  apply (C05_unions_exactly ioQ touch_u two_rays touch_wf two_rays_wf).
  - left. apply Forall_cons; [exact I|apply Forall_cons; [exact I|apply Forall_nil]].
  - intros b b' c Hb Hb' Hc.
    apply (C05_intersection_exactly ioQ touch_u c touch_wf).
    + destruct two_rays_wf as (W & _). rewrite Forall_forall in W. auto.
    + destruct Hc as [<-|[<-|[]]]; (apply C05_intersection_open_total; [apply touch_wf| |reflexivity|reflexivity]);
        destruct two_rays_wf as (W & _); rewrite Forall_forall in W; apply W; [now left|right; now left].
    + exact Hb.
    + exact Hb'.
Qed.

(** ~([0,1] | [2,3] | {4, 5}) is computed *)
Definition closed_u : list (bset QS) := touch_u ++ [BReal [qn 4; qn 5]].
Lemma closed_built : built ioQ (PUnion closed_u).
Proof.
  eapply built_or with (s := PUnion touch_u) (t := PB (BReal [qn 4; qn 5])).
  - apply touch_built.
  - eapply built_real with (vs := [qn 4; qn 5]). reflexivity.
  - reflexivity.
Qed.
Example C05_complement_case : exists r, pinv ioQ (PUnion closed_u) = Ok r.
Proof.
  apply (C05_closed_complement_exactly ioQ closed_u).
  - apply (built_wf ioQ), closed_built.
  - apply Forall_cons; [|apply Forall_cons; [|apply Forall_cons; [exact I|apply Forall_nil]]]; split; discriminate.
  - intros vs x [H|[H|[H|[]]]]; try discriminate. injection H as <-.
    intros [<-|[<-|[]]]; eexists; reflexivity.
Qed.

(** two unions that both have strings: ({'a'} | {1, 2}) & ({'a'} | {1} | [2, 3]) fails although no part of the second
    meets two parts of the first in isolated points *)
Definition mixed_u : list (bset QS) := [BNom ["a"%string] None; BReal [qn 1; qn 2]].
Definition mixed_w : list (bset QS) :=
  [BNom ["a"%string] None; BInt (mkIv (qn 2) (qn 3) false false); BReal [qn 1]].
Lemma mixed_u_built : built ioQ (PUnion mixed_u).
Proof.
  eapply built_or with (s := PB (BNom ["a"%string] None)) (t := PB (BReal [qn 1; qn 2])).
  - eapply built_nominal with (vs := ["a"%string]) (b := None). reflexivity.
  - eapply built_real with (vs := [qn 1; qn 2]). reflexivity.
  - reflexivity.
Qed.
Lemma mixed_w_built : built ioQ (PUnion mixed_w).
Proof.
  eapply built_or with (s := PUnion [BNom ["a"%string] None; BInt (mkIv (qn 2) (qn 3) false false)]) (t := PB (BReal [qn 1])).
  - eapply built_or with (s := PB (BNom ["a"%string] None)) (t := PB (BInt (mkIv (qn 2) (qn 3) false false))).
    + eapply built_nominal with (vs := ["a"%string]) (b := None). reflexivity.
    + eapply built_interval with (a := qn 2) (b := qn 3) (lo := false) (ro := false). reflexivity.
    + reflexivity.
  - eapply built_real with (vs := [qn 1]). reflexivity.
  - reflexivity.
Qed.
Theorem C05_mixed_refuted : exists (io : iterorder QS) u w, wf (PUnion u) /\ wf (PUnion w) /\
  (forall b b' c, In b u -> In b' u -> In c w -> isolated b c -> isolated b' c -> b = b') /\
  pand io (PUnion u) (PUnion w) = Raise IndexError.
Proof.
  exists ioQ, mixed_u, mixed_w. split; [apply (built_wf ioQ), mixed_u_built|].
  split; [apply (built_wf ioQ), mixed_w_built|]. split; [|reflexivity].
  intros b b' c [<-|[<-|[]]] [<-|[<-|[]]] Hc I I'; auto.
  - exfalso. destruct I as (([x|str] & V1 & V2) & _); [exact V1|].
    destruct Hc as [<-|[<-|[<-|[]]]]; [|exact V2|exact V2]. destruct I' as (([x|str'] & V1' & V2') & _); auto.
  - exfalso. destruct I' as (([x|str] & V1 & V2) & _); [exact V1|].
    destruct Hc as [<-|[<-|[<-|[]]]]; [|exact V2|exact V2]. destruct I as (([x|str'] & V1' & V2') & _); auto.
Qed.

Definition all_sets_total_properties :=
  (@C05_intersection_exactly, @C05_intersection_exactly_left, @C05_intersection_open_total,
   @C05_unions_exactly, @C05_closed_complement_exactly, C05_mixed_refuted).
Print Assumptions all_sets_total_properties.
