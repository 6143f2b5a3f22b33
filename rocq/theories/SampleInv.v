(** Proofs about the samples of a conditioned leaf: the inverse of the cumulative distribution function. *)
From Coq Require Import List Bool String Reals Lra Lia ZArith QArith Qreals Permutation FunctionalExtensionality.
From Verif Require Import Base Num Sets SetSpec SetProofs Poly Trans TransSpec TransFacts Logs Spe SpeSpec SpeFacts SpeRect LeafProofs LeafEvents Sample SampleSpec SampleFacts SampleSim SampleLaw.
Import ListNotations.
Local Open Scope list_scope.
Local Open Scope R_scope.

(** ** Half lines *)
Inductive half := HAll | HLe (x : R) | HLt (x : R).
Definition hset (h : half) (v : fval) : Prop :=
  match h with HAll => True | HLe x => exists r, v = FNum r /\ r <= x | HLt x => exists r, v = FNum r /\ r < x end.
Definition hmeet (h k : half) : half :=
  match h, k with
  | HAll, k => k
  | h, HAll => h
  | HLe x, HLe y => HLe (Rmin x y)
  | HLt x, HLt y => HLt (Rmin x y)
  | HLe x, HLt y | HLt y, HLe x => if Rle_dec y x then HLt y else HLe x
  end.
Lemma hle_num : forall x r, (exists r', FNum r = FNum r' /\ r' <= x) <-> r <= x.
Proof. intros x r. split; [intros (r' & E & H); injection E as ->; auto|eauto]. Qed.
Lemma hlt_num : forall x r, (exists r', FNum r = FNum r' /\ r' < x) <-> r < x.
Proof. intros x r. split; [intros (r' & E & H); injection E as ->; auto|eauto]. Qed.
Lemma hmeet_ok : forall h k v, is_num v -> ind (hset h) v * ind (hset k) v = ind (hset (hmeet h k)) v.
Proof.
  intros h k v (r & ->). rewrite <- ind_and. apply ind_eq. destruct h as [|x|x], k as [|y|y]; cbn; rewrite ?hle_num, ?hlt_num; try tauto.
  - unfold Rmin. destruct (Rle_dec x y); split; intros; lra.
  - destruct (Rle_dec y x); cbn; rewrite ?hle_num, ?hlt_num; split; intros; lra.
  - destruct (Rle_dec x y); cbn; rewrite ?hle_num, ?hlt_num; split; intros; lra.
  - unfold Rmin. destruct (Rle_dec x y); split; intros; lra.
Qed.
Definition hcombo (T : list (R * half)) (v : fval) : R := sumR (map (fun t => fst t * ind (hset (snd t)) v) T).
Lemma step_combo : forall g, step g -> bnd g /\ exists T, forall v, is_num v -> g v = hcombo T v.
Proof.
  induction 1 as [c|x|x|f g _ (Bf & T & ET) _ (Bg & U & EU)|f g _ (Bf & T & ET) _ (Bg & U & EU)|f g Bg E _ (_ & T & ET)].
  - split; [apply bnd_const|]. exists [(c, HAll)]. intros v _. unfold hcombo. cbn. rewrite ind_true by exact I. ring.
  - split; [apply bnd_ind|]. exists [(1, HLe x)]. intros v _. unfold hcombo. cbn. change (hset (HLe x)) with (fun v => exists r, v = FNum r /\ r <= x). ring.
  - split; [apply bnd_ind|]. exists [(1, HLt x)]. intros v _. unfold hcombo. cbn. change (hset (HLt x)) with (fun v => exists r, v = FNum r /\ r < x). ring.
  - split; [auto with bnd|]. exists (T ++ U). intros v V. unfold hcombo. rewrite map_app, sumR_app, ET, EU by auto. reflexivity.
  - split; [auto with bnd|]. exists (List.concat (map (fun t => map (fun u => (fst t * fst u, hmeet (snd t) (snd u))) U) T)). intros v V. rewrite ET, EU by auto. clear -V.
    unfold hcombo. induction T as [|t T IH]; cbn; [ring|]. rewrite map_app, sumR_app, <- IH. unfold sumR in *. rewrite Rmult_plus_distr_r. f_equal. clear IH.
    induction U as [|u U IH]; cbn; [ring|]. rewrite <- IH, <- hmeet_ok by auto. ring.
  - split; auto. exists T. intros v V. rewrite <- E by auto. now apply ET.
Qed.
Lemma step_agree : forall I J : (fval -> R) -> R, law I -> law J -> I (ind is_num) = 1 -> J (ind is_num) = 1 ->
  (forall x, I (ind (hset (HLe x))) = J (ind (hset (HLe x)))) -> (forall x, I (ind (hset (HLt x))) = J (ind (hset (HLt x)))) -> forall g, step g -> I g = J g.
Proof.
  intros I J LI LJ NI NJ Ele Elt g G. destruct (step_combo g G) as (Bg & T & E).
  assert (Bt : forall t, In t T -> bnd (fun v => fst t * ind (hset (snd t)) v)) by (intros; auto with bnd).
  assert (K : forall K : (fval -> R) -> R, law K -> K (ind is_num) = 1 -> K g = sumR (map (fun t => fst t * K (ind (hset (snd t)))) T)).
  { intros K LK NK. rewrite (law_as LK (fun v => ~ is_num v) g (hcombo T)).
    - unfold hcombo. rewrite (law_sum LK _ T (fun t v => fst t * ind (hset (snd t)) v) Bt). apply sumR_ext. intros t _. apply (law_scale LK). apply bnd_ind.
    - now apply (law_full LK).
    - auto.
    - apply (bnd_sum _ _ T (fun t v => fst t * ind (hset (snd t)) v)). auto.
    - intros v V. apply E. destruct (dec (is_num v)); tauto. }
  rewrite (K I), (K J) by auto. apply sumR_ext. intros (c & h) _. cbn. f_equal. destruct h; auto. rewrite (law_ext (I:=I) _ (fun _ => 1)), (law_ext (I:=J) _ (fun _ => 1)); try (intros; now apply ind_true). now rewrite (law_one LI), (law_one LJ).
Qed.

Lemma law_sub : forall A (I : (A -> R) -> R) (P Q : A -> Prop), law I -> (forall a, P a -> Q a) -> I (ind P) <= I (ind Q).
Proof. intros A I P Q L H. apply (law_mono L); auto with bnd. intros a. unfold ind. pose proof (H a). destruct (dec (P a)), (dec (Q a)); try lra; tauto. Qed.

(** ** Uniform numbers *)
Section Unif.
  Context (ulaw : (R -> R) -> R) (U : uniform_law ulaw).
  Notation Lu := (u_law _ U).
  Lemma unif_lt : forall x, 0 <= x <= 1 -> ulaw (ind (fun u => u < x)) = x.
  Proof.
    intros x Hx. apply Rle_antisym.
    - eapply Rle_trans; [|apply Req_le; exact (u_cdf _ U x Hx)]. apply (law_mono Lu); auto with bnd. intros u. unfold ind. destruct (dec (u < x)), (dec (u <= x)); lra.
    - apply Rnot_lt_le. intros H. pose proof (law_01 Lu (fun u => u < x)) as B. set (p := ulaw (ind (fun u => u < x))) in *. assert (Hy : 0 <= (p + x) / 2 <= 1) by lra.
      assert (K : ulaw (ind (fun u => u <= (p + x) / 2)) <= p). { apply (law_mono Lu); auto with bnd. intros u. unfold ind. destruct (dec (u <= (p + x) / 2)), (dec (u < x)); lra. }
      rewrite (u_cdf _ U _ Hy) in K. lra.
  Qed.
  Lemma unif_ge : forall t, ulaw (ind (fun u => t <= u)) = Rmin 1 (Rmax 0 (1 - t)).
  Proof.
    intros t. destruct (Rle_dec t 0) as [H0|H0]; [|destruct (Rle_dec 1 t) as [H1|H1]].
    - rewrite Rmax_right, Rmin_left by lra. rewrite <- (u_in _ U). apply Rle_antisym; [rewrite (u_in _ U); apply (law_01 Lu)|]. apply (law_mono Lu); auto with bnd. intros u. unfold ind. destruct (dec (0 < u < 1)), (dec (t <= u)); lra.
    - rewrite Rmax_left, Rmin_right by lra. apply (law_null Lu (fun u => ~ (0 < u < 1))); auto with bnd; [apply (law_full Lu), (u_in _ U)|]. intros u Hu. apply ind_false. intros K. apply Hu. intros Q. lra.
    - rewrite Rmax_right, Rmin_right by lra. rewrite (law_ext (I:=ulaw) _ (fun u => 1 - ind (fun u => u < t) u)); [|intros u; rewrite <- ind_not; apply ind_eq; split; lra].
      rewrite (law_minus Lu (fun _ => 1)) by auto with bnd. rewrite (law_one Lu), unif_lt by lra. reflexivity.
  Qed.
End Unif.

Section Inversion.
  Context {N : numsys} {S : logsys} {D : distsys N S}.
  Context (dlaw : dist D -> (fval -> R) -> R) (ulaw : (R -> R) -> R) (U : uniform_law ulaw) (ppf : dist D -> R -> R).
  Context (disc : bool) (d : dist D) (supp : interval N).
  Context (Wi : wf_iv supp) (Wd : disc = true -> disc_supp dlaw d supp) (Wo : dist_ok dlaw disc d) (P : 0 < dlaw d (ind (in_iv supp))) (Q : quantile dlaw disc d (ppf d)).
  Notation Lu := (u_law _ U).
  Notation B := (dlaw d).
  Notation LB := (d_law _ _ _ Wo).
  Notation I := (real_law dlaw d supp true).
  Definition inverse (u : R) : R := ppf d (u * leaf_Fl disc d supp + (1 - u) * leaf_Fu disc d supp).
  Definition J (g : fval -> R) : R := ulaw (fun u => g (FNum (inverse u))).
  Lemma J_law : law J.
  Proof. unfold J. apply (law_image _ _ ulaw (fun u => FNum (inverse u)) Lu). Qed.
  Lemma I_law : law I.
  Proof. apply real_law_law; [exact LB|exact P]. Qed.
  Notation Fl := (B (ind (at_most (low disc supp)))).
  Notation Fu := (B (ind (at_most (high disc supp)))).
  Lemma Fl_eq : leaf_Fl disc d supp = Fl.
  Proof. exact (logFl_B dlaw disc d supp Wi (disc_int _ _ _ _ _ _ _ Wd) Wo). Qed.
  Lemma Fu_eq : leaf_Fu disc d supp = Fu.
  Proof. unfold leaf_Fu. rewrite (d_cdf _ _ _ Wo). now rewrite (proj2 (supp_ends disc supp Wi (disc_int _ _ _ _ _ _ _ Wd))). Qed.
  Lemma Z_eq : B (ind (in_iv supp)) = Fu - Fl.
  Proof. apply (cut_prob _ _ _ _ LB); [apply null_cut; auto|now apply low_high]. Qed.
  Lemma at_most_le_set : forall x v, at_most (Fin x) v <-> hset (HLe x) v.
  Proof.
    intros x v. unfold hset. split; intros (r & -> & H).
    - exists r. split; auto. pose proof (proj1 (at_most_num (Fin x) r)) as K. apply K. exists r. auto.
    - now apply (at_most_num (Fin x) r).
  Qed.
  Lemma cdf_le : forall x, cdf dlaw d x = B (ind (hset (HLe x))).
  Proof. intros x. unfold cdf. f_equal. apply ind_iff. apply at_most_le_set. Qed.
  (** the distribution function of the inverse *)
  Lemma q_in : forall u, 0 < u < 1 -> 0 < u * Fl + (1 - u) * Fu < 1 /\ Fl < u * Fl + (1 - u) * Fu < Fu.
  Proof.
    intros u Hu. pose proof P as P'. rewrite Z_eq in P'. pose proof (law_01 LB (at_most (low disc supp))). pose proof (law_01 LB (at_most (high disc supp))). assert (Fl < u * Fl + (1 - u) * Fu < Fu) by (split; nra). lra.
  Qed.
  Definition clamp (F : R) : R := Rmin 1 (Rmax 0 ((F - Fl) / (Fu - Fl))).
  Lemma J_le : forall x, J (ind (hset (HLe x))) = clamp (cdf dlaw d x).
  Proof.
    intros x. pose proof P as P'. rewrite Z_eq in P'. unfold J, clamp. set (F := cdf dlaw d x). set (t := (Fu - F) / (Fu - Fl)).
    transitivity (ulaw (ind (fun u => t <= u))).
    - apply (law_as Lu (fun u => ~ (0 < u < 1))); auto with bnd.
      + apply (law_full Lu), (u_in _ U).
      + intros u Hu. assert (Hu' : 0 < u < 1) by (destruct (dec (0 < u < 1)); tauto). apply ind_eq. cbn. rewrite hle_num. unfold inverse. rewrite Fl_eq, Fu_eq. destruct (q_in u Hu') as (Q01 & _).
        rewrite (q_least _ _ _ _ Q _ x Q01). fold F. unfold t. split; intros H.
        * apply (Rmult_le_reg_r (Fu - Fl)); [lra|]. unfold Rdiv. rewrite Rmult_assoc, Rinv_l by lra. lra.
        * apply (Rmult_le_compat_r (Fu - Fl)) in H; [|lra]. unfold Rdiv in H. rewrite Rmult_assoc, Rinv_l in H by lra. lra.
    - rewrite (unif_ge _ U). f_equal. f_equal. unfold t. field. lra.
  Qed.
  Lemma I_le : forall x, I (ind (hset (HLe x))) = clamp (cdf dlaw d x).
  Proof.
    intros x. pose proof P as P'. rewrite Z_eq in P'. unfold real_law. rewrite Z_eq.
    assert (M : forall y, B (fun v => ind (hset (HLe x)) v * ind (at_most y) v) = Rmin (cdf dlaw d x) (B (ind (at_most y)))).
    { intros y. assert (C : (forall v, hset (HLe x) v -> at_most y v) \/ (forall v, at_most y v -> hset (HLe x) v)).
      { destruct y as [|y|].
        - right. intros v (r & -> & K). exfalso. apply (proj1 (at_most_num NInf r)). exists r. auto.
        - destruct (Rle_dec x y) as [H|H]; [left|right]; intros v K; [apply at_most_le_set|apply at_most_le_set in K]; destruct K as (r & -> & K); exists r; split; auto; lra.
        - left. intros v (r & -> & K). now apply (at_most_num PInf r). }
      rewrite cdf_le. destruct C as [C|C].
      - rewrite (law_ext (I:=B) _ (ind (hset (HLe x)))).
        + rewrite Rmin_left; auto. apply (law_mono LB); auto with bnd. intros v. unfold ind. pose proof (C v). destruct (dec (hset (HLe x) v)), (dec (at_most y v)); try lra. tauto.
        + intros v. rewrite <- ind_and. apply ind_eq. pose proof (C v). tauto.
      - rewrite (law_ext (I:=B) _ (ind (at_most y))).
        + rewrite Rmin_right; auto. apply (law_mono LB); auto with bnd. intros v. unfold ind. pose proof (C v). destruct (dec (hset (HLe x) v)), (dec (at_most y v)); try lra. tauto.
        + intros v. rewrite <- ind_and. apply ind_eq. pose proof (C v). tauto. }
    assert (E : B (fun v => ind (hset (HLe x)) v * ind (in_iv supp) v) = Rmin (cdf dlaw d x) Fu - Rmin (cdf dlaw d x) Fl).
    { rewrite <- !M. rewrite <- (law_minus LB) by auto with bnd. apply (law_as LB (fun v => ~ cuts supp (low disc supp) (high disc supp) v)); auto with bnd.
      - now apply null_cut.
      - intros v Hv. assert (C : cuts supp (low disc supp) (high disc supp) v) by (destruct (dec (cuts supp (low disc supp) (high disc supp) v)); tauto). pose proof (at_most_mono _ _ v (low_high disc supp Wi)) as Mo. unfold cuts, ind in *.
        destruct (dec (in_iv supp v)), (dec (at_most (high disc supp) v)), (dec (at_most (low disc supp) v)); try lra; tauto. }
    rewrite E. unfold clamp. set (F := cdf dlaw d x). destruct (Rle_dec F Fl) as [H|H]; [|destruct (Rle_dec Fu F) as [K|K]].
    - rewrite !Rmin_left by lra. rewrite Rmax_left, Rmin_right; [unfold Rdiv; ring|lra|]. apply Rmult_le_reg_r with (Fu - Fl); [lra|]. unfold Rdiv. rewrite Rmult_assoc, Rinv_l by lra. lra.
    - rewrite !Rmin_right by lra. assert (H1 : 1 <= (F - Fl) / (Fu - Fl)). { apply Rmult_le_reg_r with (Fu - Fl); [lra|]. unfold Rdiv. rewrite Rmult_assoc, Rinv_l by lra. lra. } rewrite Rmax_right, Rmin_left by lra. field. lra.
    - rewrite (Rmin_left F Fu), (Rmin_right F Fl) by lra.
      assert (H0 : 0 <= (F - Fl) / (Fu - Fl)). { apply Rmult_le_pos; [lra|]. left. apply Rinv_0_lt_compat. lra. }
      assert (H1 : (F - Fl) / (Fu - Fl) <= 1). { apply Rmult_le_reg_r with (Fu - Fl); [lra|]. unfold Rdiv. rewrite Rmult_assoc, Rinv_l by lra. lra. }
      rewrite Rmax_right, Rmin_right by lra. reflexivity.
  Qed.
  Lemma I_num : I (ind is_num) = 1.
  Proof.
    unfold real_law. rewrite (law_ext (I:=B) _ (ind (in_iv supp))); [field; lra|]. intros v. rewrite <- ind_and. apply ind_eq. split; [tauto|]. intros H. split; auto. destruct v as [r|s]; [now exists r|]. contradiction (in_iv_str supp s H).
  Qed.
  Lemma J_num : J (ind is_num) = 1.
  Proof. unfold J. rewrite <- (law_one Lu). apply law_ext. intros u. apply ind_true. eexists. reflexivity. Qed.
  Lemma I_null : forall Z : fval -> Prop, B (ind Z) = 0 -> I (ind Z) = 0.
  Proof.
    intros Z HZ. unfold real_law. rewrite (law_null LB Z); auto with bnd; [unfold Rdiv; ring|]. intros v Hv. rewrite (ind_false _ Z v Hv). ring.
  Qed.
  Lemma lt_agree : forall x, I (ind (hset (HLt x))) = J (ind (hset (HLt x))).
  Proof.
    intros x. destruct (Bool.bool_dec disc true) as [Ed|Ed]; [|apply Bool.not_true_is_false in Ed].
    - (* the largest integer below x *)
      destruct (archimed x) as (A1 & A2). set (z := if Req_EM_T (IZR (up x - 1)) x then (up x - 2)%Z else (up x - 1)%Z).
      assert (Hz : forall k : Z, IZR k < x <-> IZR k <= IZR z).
      { intros k. unfold z. destruct (Req_EM_T (IZR (up x - 1)) x) as [E|E].
        - split; intros K; [rewrite <- E in K; apply lt_IZR in K; apply IZR_le; lia|apply le_IZR in K; rewrite <- E; apply IZR_lt; lia].
        - assert (IZR (up x - 1) <= x) by (rewrite minus_IZR; lra). assert (IZR (up x - 1) < x) by lra. split; intros K.
          + apply IZR_le. assert (Hk : IZR k < IZR (up x)) by lra. apply lt_IZR in Hk. lia.
          + apply Rle_lt_trans with (IZR (up x - 1)); [exact K|lra]. }
      transitivity (I (ind (hset (HLe (IZR z))))); [|transitivity (J (ind (hset (HLe (IZR z))))); [now rewrite I_le, J_le|]].
      + apply (law_as I_law (fun v => ~ is_integer v)); auto with bnd.
        * apply I_null. apply (law_full LB). now apply (d_int _ _ _ Wo).
        * intros v Hv. assert (Iv : is_integer v) by (destruct (dec (is_integer v)); tauto). destruct Iv as (k & ->). apply ind_eq. cbn. rewrite hlt_num, hle_num. apply Hz.
      + unfold J. apply (law_as Lu (fun u => ~ (0 < u < 1))).
        * apply (law_full Lu), (u_in _ U).
        * apply (bnd_comp _ _ (fun u => FNum (inverse u)) (ind (hset (HLe (IZR z))))). apply bnd_ind.
        * apply (bnd_comp _ _ (fun u => FNum (inverse u)) (ind (hset (HLt x)))). apply bnd_ind.
        * intros u Hu. assert (Hu' : 0 < u < 1) by (destruct (dec (0 < u < 1)); tauto). apply ind_eq. cbn. rewrite hlt_num, hle_num. destruct (q_in u Hu') as (Q01 & _).
          destruct (q_int _ _ _ _ Q Ed _ Q01) as (k & Ek). unfold inverse. rewrite Fl_eq, Fu_eq, Ek. symmetry. apply Hz.
    - transitivity (I (ind (hset (HLe x)))); [|transitivity (J (ind (hset (HLe x)))); [now rewrite I_le, J_le|]].
      + apply (law_as I_law (eq (FNum x))); auto with bnd.
        * apply I_null. now apply (d_cont _ _ _ Wo).
        * intros [r|s] Hv; apply ind_eq; cbn; [rewrite hlt_num, hle_num|split; intros (r & E & _); discriminate]. split; [lra|]. intros [K|K]; auto. congruence.
      + (* the inverse is below x as often as it is at most x *)
        pose proof P as P'. rewrite Z_eq in P'.
        apply Rle_antisym.
        * apply Rnot_lt_le. intros H. set (e := J (ind (hset (HLe x))) - J (ind (hset (HLt x)))) in *. assert (He : 0 < e) by (unfold e; lra).
          destruct (q_cont _ _ _ _ Q Ed x (e * (Fu - Fl))) as (y & Hy & Hc); [apply Rmult_lt_0_compat; lra|].
          assert (K : J (ind (hset (HLe y))) <= J (ind (hset (HLt x)))).
          { apply (law_sub _ _ _ _ J_law). intros v (r & -> & Hr). exists r. split; auto. lra. }
          assert (G : clamp (cdf dlaw d x) - clamp (cdf dlaw d y) < e).
          { assert (Lp : forall a b, a <= b -> Rmin 1 (Rmax 0 b) - Rmin 1 (Rmax 0 a) <= b - a) by (intros a b Hab; unfold Rmin, Rmax; repeat destruct (Rle_dec _ _); lra).
            assert (Mo : cdf dlaw d y <= cdf dlaw d x). { rewrite !cdf_le. apply (law_sub _ _ _ _ LB). intros v (r & -> & Hr). exists r. split; auto. lra. }
            set (Fx := cdf dlaw d x) in *. set (Fy := cdf dlaw d y) in *. unfold clamp. eapply Rle_lt_trans; [apply Lp; unfold Rdiv; apply Rmult_le_compat_r; [left; apply Rinv_0_lt_compat; lra|lra]|].
            replace ((Fx - Fl) / (Fu - Fl) - (Fy - Fl) / (Fu - Fl)) with ((Fx - Fy) / (Fu - Fl)) by (field; lra). apply Rmult_lt_reg_r with (Fu - Fl); [lra|]. unfold Rdiv. rewrite Rmult_assoc, Rinv_l by lra. lra. }
          rewrite <- !J_le in G. unfold e in G. lra.
        * apply (law_sub _ _ _ _ J_law). intros v (r & -> & Hr). exists r. split; auto. lra.
  Qed.
  Theorem inverse_law : forall g, step g -> J g = I g.
  Proof.
    intros g G. symmetry. apply (step_agree I J I_law J_law I_num J_num); auto.
    - intros x. now rewrite I_le, J_le.
    - apply lt_agree.
  Qed.
End Inversion.
