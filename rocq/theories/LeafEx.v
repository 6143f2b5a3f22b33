(** Cases and refutations for C45 and C46. *)
From Coq Require Import List Bool String Reals Lra Lia ZArith QArith Qabs Qreals FunctionalExtensionality Permutation.
From Verif Require Import Base Num Sets SetSpec SetIv SetProofs SetOr SetOps SetAlg SetBuilt
  Poly Trans TransSpec TransFacts PolyProofs InvProofs InvMain EvProofs ArithProofs PolyEx
  Dnf DnfSpec DnfProofs DnfUnion Logs Spe SpeSpec SpeFacts SpeRect LeafProofs LeafEvents LeafCond PropTrans PropSpe PropLeaf Instances Uniform SpeEx.
Import ListNotations.
Local Open Scope R_scope.
Local Open Scope string_scope.

(** a leaf with values -3, -1 and 1 *)
Definition nl : list (Z * Q) := [((-3)%Z, 1#4); ((-1)%Z, 1#2); (1%Z, 1#4)]%Q.
Definition i31 : interval QS := mkIv (qn (-3)) (qn 1) false false.
Definition nx : spQ := RealLeaf (D:=DQ) true "X" (DFin nl) i31 false exenv.
Lemma nl_dist : dist_ok (D:=DQ) elaw true (DFin nl).
Proof. apply fin_dist. split; [|reflexivity]. repeat constructor; discriminate. Qed.
Lemma i31_int : int_supp (N:=QS) i31.
Proof. split; [exists (-3)%Z|exists 1%Z]; apply Q2R_int. Qed.
Lemma nx_leaf : integer_leaf (D:=DQ) elaw "X" (DFin nl) i31 false exenv.
Proof.
  split; [now apply iv_wf|]. split; [exact i31_int|]. split; [exact nl_dist|]. split; [|exact ex_env_ok].
  cbn [elaw nl map sumR fold_right fst snd]. rewrite !ind_true; [unfold Q2R; cbn; lra| | |]; apply in_iv_num; cbn; unfold Q2R; cbn; lra.
Qed.
(** (-2, 3/2) contains -1, 0 and 1 *)
Definition i2 : interval QS := mkIv (qn (-2)) (qn (3#2)) true true.
Lemma i2_ints : integers_of i2 [-1; 0; 1]%Z.
Proof.
  split; [repeat constructor; cbn; intuition discriminate|]. intros k. rewrite in_iv_num. cbn. unfold Q2R; cbn. split.
  - intros [<-|[<-|[<-|[]]]]; lra.
  - intros (A & B). assert (-2 < k)%Z by (apply lt_IZR; lra). assert (k < 2)%Z by (apply lt_IZR; lra). lia.
Qed.
Example C45_case : integer_leaf (D:=DQ) elaw "X" (DFin nl) i31 false exenv /\ wf_iv i2 /\ rounds (iv_a i2) /\ rounds (iv_b i2) /\ integers_of i2 [-1; 0; 1]%Z /\
  leaf_logprob_interval (D:=DQ) true (DFin nl) i31 false i2 = Ok (3#4)%Q /\
  Un_cv (fun n => Pr elaw nx (fun w => exists r, w "X" = FNum r /\ Rabs r <= INR n)) 1.
Proof.
  split; [exact nx_leaf|]. split; [now apply iv_wf|]. split; [right; exists (-2)%Z; apply Q2R_int|]. split; [left; cbn; unfold Q2R; cbn; lra|]. split; [exact i2_ints|]. split; [reflexivity|].
  intros e He. exists 3%nat. intros n Hn. replace (Pr elaw nx (fun w => exists r, w "X" = FNum r /\ Rabs r <= INR n)) with 1; [unfold R_dist; rewrite Rminus_diag_eq by auto; now rewrite Rabs_R0|].
  unfold nx. rewrite (PropLeaf.leaf_prob elaw "X" (DFin nl) i31 false exenv nx_leaf (fun v => exists r, v = FNum r /\ Rabs r <= INR n)). cbn [leaf_den_law real_law elaw nl map sumR fold_right fst snd].
  assert (3 <= INR n) by (replace 3 with (INR 3) by (cbn; lra); now apply le_INR).
  rewrite !ind_true; [unfold Q2R; cbn; lra| | |]; (eexists; split; [reflexivity|]; rewrite <- abs_IZR; cbn; lra).
Qed.
(** the unbounded case and the event *)
Example C45_event_case : wf_leaf elaw dx /\ gev (within_iv "X" (mkIv (qn (1#2)) (qn 3) false true)) /\ integers_of (N:=QS) (mkIv (qn (1#2)) (qn 3) false true) [1; 2]%Z /\
  leaf_logprob ioQ po 9 dx (within_iv "X" (mkIv (qn (1#2)) (qn 3) false true)) = Ok (1#4)%Q.
Proof.
  split; [exact dx_wf|]. split; [apply (good_int (TId "X") (qn (1#2)) (qn 3) false true); [exact Logic.I|exact Logic.I|reflexivity]|]. split; [|reflexivity].
  split; [repeat constructor; cbn; intuition discriminate|]. intros k. rewrite in_iv_num. cbn. unfold Q2R; cbn. split.
  - intros [<-|[<-|[]]]; lra.
  - intros (A & B). assert (0 < k)%Z by (apply lt_IZR; lra). assert (k < 3)%Z by (apply lt_IZR; lra). lia.
Qed.

(** The claim fails below zero: float_to_int truncates towards zero, so [-3/2, 1] loses the
    value -1.  The code reports 1/4 for an event of probability 3/4. *)
Definition i15 : interval QS := mkIv (qn (-3#2)) (qn 1) false false.
Theorem C45_refuted : exists (d : dist DQ) supp env ks p,
  integer_leaf (D:=DQ) elaw "X" d supp false env /\ wf_iv i15 /\ integers_of i15 ks /\
  leaf_logprob ioQ po 9 (RealLeaf true "X" d supp false env) (within_iv "X" i15) = Ok p /\
  toP p < sumR (map (weight elaw (RealLeaf true "X" d supp false env) "X") ks) /\
  sumR (map (weight elaw (RealLeaf true "X" d supp false env) "X") ks) = Pr elaw (RealLeaf true "X" d supp false env) (holds (within_iv "X" i15)).
Proof.
  exists (DFin nl), i31, exenv, [-1; 0; 1]%Z, (1#4)%Q. assert (I : integers_of i15 [-1; 0; 1]%Z).
  { split; [repeat constructor; cbn; intuition discriminate|]. intros k. rewrite in_iv_num. cbn. unfold Q2R; cbn. split.
    - intros [<-|[<-|[<-|[]]]]; lra.
    - intros (A & B). assert (-2 < k)%Z by (apply lt_IZR; lra). assert (k < 2)%Z by (apply lt_IZR; lra). lia. }
  assert (Sm : sumR (map (weight elaw nx "X") [-1; 0; 1]%Z) = leaf_den_law elaw nx (ind (in_iv i15))).
  { symmetry. exact (law_points elaw "X" (DFin nl) i31 false exenv nx_leaf (in_iv i15) [-1; 0; 1]%Z (proj1 I) (proj2 I)). }
  split; [exact nx_leaf|]. split; [now apply iv_wf|]. split; [exact I|]. split; [reflexivity|]. fold nx. rewrite Sm. split.
  - cbn [leaf_den_law nx real_law elaw nl map sumR fold_right fst snd]. rewrite (ind_false _ _ (FNum (-3))), !ind_true.
    + change (@toP LQ (1#4)%Q) with (lq_P (1#4)). rewrite lq_P_pos by discriminate. unfold Q2R; cbn. lra.
    + apply in_iv_num; cbn; unfold Q2R; cbn; lra.
    + apply in_iv_num; cbn; unfold Q2R; cbn; lra.
    + intros K. apply in_iv_num in K. cbn in K. unfold Q2R in K; cbn in K. lra.
  - unfold nx. rewrite <- (PropLeaf.leaf_prob elaw "X" (DFin nl) i31 false exenv nx_leaf (in_iv i15)). unfold Pr. apply (law_ext (I:=fun g => den elaw nx g w0)). intros w. apply ind_eq.
    unfold within_iv. rewrite holds_basic. cbn [teval]. unfold in_iv. split.
    + intros K. exists (w "X"). split; auto. split; auto. destruct (w "X"); [exact Logic.I|destruct K].
    + intros (y & E & _ & K). injection E as <-. exact K.
Qed.

(** ** C46 *)
Definition pts : list (ext (num QS)) := [qn 5; qn 2; qn (-1); qn 3; qn 7; qn 0].
Example C46_case : finite_set (N:=QS) pts /\ integral (N:=QS) pts /\
  partition_finite_real_contiguous (N:=QS) pts = [[qn (-1); qn 0]; [qn 2; qn 3]; [qn 5]; [qn 7]] /\
  flatten_basic (N:=QS) true (BReal pts) = Ok [mkIv (qn (-1)) (qn 0) false false; mkIv (qn 2) (qn 3) false false; mkIv (qn 5) (qn 6) false true; mkIv (qn 7) (qn 8) false true].
Proof.
  split; [split|].
  - repeat constructor; eexists; reflexivity.
  - cbn. unfold Q2R; cbn. repeat constructor; cbn; intuition; match goal with H : Fin _ = Fin _ |- _ => injection H; lra end.
  - split; [repeat constructor; cbn; [exists 5%Z|exists 2%Z|exists (-1)%Z|exists 3%Z|exists 7%Z|exists 0%Z]; apply Q2R_int|]. split; reflexivity.
Qed.
Lemma gev_half2 : gev (EBasic KReal (TId "X") (PB (BReal [qn (1#2); qn 2])) : tr QS).
Proof.
  split; [|reflexivity]. refine (conj Logic.I (conj Logic.I (conj _ _))); [|right; eexists; reflexivity]. cbn. unfold Q2R; cbn. split; [|discriminate].
  repeat constructor; cbn; intuition; match goal with H : Fin _ = Fin _ |- _ => injection H; lra end.
Qed.
(** Points that are not integers are refused, even where they have probability zero:
    conditioning a leaf with X in {0, 2, 3} on X << {1/2, 2} is an error, not X = 2. *)
Theorem C46_real_refuted : exists vs : list (ext (num QS)), finite_set (N:=QS) vs /\ wf_leaf elaw dx /\
  gev (EBasic KReal (TId "X") (PB (BReal vs)) : tr QS) /\ 0 < prob elaw dx (EBasic KReal (TId "X") (PB (BReal vs))) /\
  leaf_condition ioQ po 9 dx (EBasic KReal (TId "X") (PB (BReal vs))) = Raise AssertionError.
Proof.
  exists [qn (1#2); qn 2]. split; [split|].
  - repeat constructor; eexists; reflexivity.
  - cbn. unfold Q2R; cbn. repeat constructor; cbn; intuition; match goal with H : Fin _ = Fin _ |- _ => injection H; lra end.
  - split; [exact dx_wf|]. split; [exact gev_half2|]. split; [|reflexivity].
    apply Rlt_le_trans with (leaf_den_law elaw dx (ind (fun v => v = FNum 2))).
    + cbn [leaf_den_law dx real_law elaw dl map sumR fold_right fst snd]. rewrite (ind_false _ _ (FNum 0)), (ind_true _ _ (FNum 2)), (ind_false _ _ (FNum 3)).
      * unfold Q2R; cbn. lra.
      * intros K. injection K. lra.
      * reflexivity.
      * intros K. injection K. lra.
    + unfold prob, Pr. rewrite (den_leaf elaw dx) by reflexivity. apply (law_mono (leaf_law_law elaw dx dx_wf)); auto with bnd. intros v. unfold ind at 1. destruct (dec (v = FNum 2)) as [->|]; [|apply ind_01].
      rewrite ind_true; [lra|]. rewrite holds_basic. exists (FNum 2). cbn [teval]. split; [f_equal; exact (leaf_place_base elaw dx w0 (FNum 2) dx_wf)|].
      split; [exact Logic.I|]. cbn. exists (qn 2). split; [right; now left|]. cbn. unfold Q2R; cbn. f_equal. lra.
Qed.
