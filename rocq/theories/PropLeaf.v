(** Properties C45 and C46: discrete leaves on intervals, and the contiguous runs of a finite set
    (src/spe.py:773-783, 884-926, src/sym_util.py:53-65, src/sets.py:419-423). *)
From Coq Require Import List Bool String Reals Lra Lia ZArith QArith Qreals FunctionalExtensionality Permutation Sorted.
From Verif Require Import Base Num Sets SetSpec SetIv SetProofs SetOr SetOps SetAlg SetBuilt
  Poly Trans TransSpec TransFacts PolyProofs InvProofs InvMain EvProofs ArithProofs
  Dnf DnfSpec DnfProofs DnfUnion Logs Spe SpeSpec SpeFacts SpeRect LeafProofs LeafEvents LeafCond PropSpe.
Import ListNotations.
Local Open Scope R_scope.

(** ** The integers of an interval *)
Section Integers.
  Context {N : numsys}.
  (** ks lists the integers of the interval, each once *)
  Definition integers_of (i : interval N) (ks : list Z) : Prop := NoDup ks /\ forall k, In k ks <-> in_iv i (FNum (IZR k)).
  Definition zrange (lo : Z) (n : nat) : list Z := map (fun j => (lo + Z.of_nat j)%Z) (seq 0 n).
  Lemma zrange_in : forall lo n k, In k (zrange lo n) <-> (lo <= k < lo + Z.of_nat n)%Z.
  Proof.
    intros lo n k. unfold zrange. rewrite in_map_iff. split.
    - intros (j & <- & Hj). apply in_seq in Hj. lia.
    - intros H. exists (Z.to_nat (k - lo)). split; [lia|]. apply in_seq. lia.
  Qed.
  Lemma zrange_nodup : forall lo n, NoDup (zrange lo n).
  Proof. intros. unfold zrange. apply FinFun.Injective_map_NoDup; [|apply seq_NoDup]. intros a b H. lia. Qed.
  Definition chosen (P : Z -> Prop) (l : list Z) : list Z := filter (fun k => if dec (P k) then true else false) l.
  Lemma chosen_in : forall P l k, In k (chosen P l) <-> In k l /\ P k.
  Proof. intros P l k. unfold chosen. rewrite filter_In. destruct (dec (P k)); intuition discriminate. Qed.
  (** a bounded interval has finitely many *)
  Theorem C45_integers : forall i : interval N, finite (iv_a i) -> finite (iv_b i) -> exists ks, integers_of i ks.
  Proof.
    intros i (a & Ea) (b & Eb). exists (chosen (fun k => in_iv i (FNum (IZR k))) (zrange (nfloor a) (Z.to_nat (nfloor b + 2 - nfloor a)))). split; [apply NoDup_filter, zrange_nodup|].
    intros k. rewrite chosen_in, zrange_in. split; [tauto|]. intros H. split; auto. apply in_iv_num in H. rewrite Ea, Eb in H. destruct H as (H1 & H2). pose proof (nfloor_ok N a) as (A1 & A2). pose proof (nfloor_ok N b) as (B1 & B2).
    assert (toR a <= IZR k) by (simpl in H1; destruct (iv_lo i); lra). assert (IZR k <= toR b) by (simpl in H2; destruct (iv_ro i); lra).
    assert (nfloor a < k + 1)%Z by (apply lt_IZR; rewrite plus_IZR; lra). assert (k < nfloor b + 1)%Z by (apply lt_IZR; rewrite plus_IZR; lra). lia.
  Qed.
End Integers.

Section Discrete.
  Context {N : numsys} {S : logsys} {D : distsys N S} (io : iterorder N) (po : polyoracle N) (fuel : nat).
  Context (dlaw : dist D -> (fval -> R) -> R).
  Notation spe := (spe D).
  Notation tr := (tr N).
  Notation wf_leaf := (wf_leaf dlaw).
  Notation prob := (prob dlaw).

  (** the probability of one value of the leaf *)
  Definition weight (s : spe) (x : string) (k : Z) : R := Pr dlaw s (fun w => w x = FNum (IZR k)).
  (** the event x << i, and the event x << {k} *)
  Definition within_iv (x : string) (i : interval N) : tr := EBasic KInt (TId x) (PB (BInt i)).
  Definition at_value (x : string) (k : Z) : tr := EBasic KReal (TId x) (PB (BReal [Fin (nint k)])).

  Section Leaf.
    Context (x : string) (d : dist D) (supp : interval N) (cond : bool) (env : tenv (N:=N)).
    Let s : spe := RealLeaf true x d supp cond env.
    (** an integer-valued leaf: any support with integer ends *)
    Definition integer_leaf : Prop := wf_iv supp /\ int_supp supp /\ dist_ok dlaw true d /\ (if cond then 0 < dlaw d (ind (in_iv supp)) else dlaw d (ind (in_iv supp)) = 1) /\ env_ok x env.
    Context (W : integer_leaf).
    Let L : law (leaf_den_law dlaw s).
    Proof. destruct W as (_ & _ & Dk & H & _). apply real_law_law; [exact (d_law _ _ _ Dk)|exact H]. Qed.
    Lemma leaf_prob : forall P : fval -> Prop, Pr dlaw s (fun w => P (w x)) = leaf_den_law dlaw s (ind P).
    Proof.
      intros P. unfold Pr. rewrite (den_leaf dlaw s) by reflexivity. apply (law_ext (I:=leaf_den_law dlaw s)). intros v. apply ind_eq. cbn [leaf_place s]. rewrite place_base by apply W. tauto.
    Qed.
    Lemma leaf_integer : leaf_den_law dlaw s (ind (fun v => ~ is_integer v)) = 0.
    Proof.
      pose proof W as (W1 & W2 & W3 & W4 & _). apply (I_null dlaw true d supp cond W3 W4). apply (law_full (d_law _ _ _ W3)). now apply (d_int _ _ _ W3).
    Qed.
    Lemma law_points : forall (P : fval -> Prop) ks, NoDup ks -> (forall k, In k ks <-> P (FNum (IZR k))) -> leaf_den_law dlaw s (ind P) = sumR (map (weight s x) ks).
    Proof.
      intros P ks Nd H. transitivity (sumR (map (fun k => leaf_den_law dlaw s (ind (fun v => v = FNum (IZR k)))) ks)).
      - rewrite <- (law_sum L _ ks (fun k => ind (fun v => v = FNum (IZR k)))) by auto with bnd. apply (law_as L _ _ _ leaf_integer); auto with bnd. { apply bnd_sum. intros; auto with bnd. }
        intros v Hv. assert (is_integer v) as (k & ->) by (destruct (dec (is_integer v)); tauto). rewrite (ind_FOP _ _ (fun k v => v = FNum (IZR k))).
        + apply ind_eq. rewrite <- H. split; [intros K; eauto|]. intros (k' & K & E). injection E as E. apply eq_IZR in E. now subst.
        + apply NoDup_FOP in Nd. eapply FOP_weaken; [|exact Nd]. intros a b _ _ Ne (E1 & E2). rewrite E1 in E2. injection E2 as E2. apply eq_IZR in E2. auto.
      - f_equal. apply map_ext. intros k. unfold weight. now rewrite (leaf_prob (fun v => v = FNum (IZR k))).
    Qed.

    (** ** C45 *)
    (** logprob_interval__ answers for every interval, with the probability of the interval *)
    Theorem C45_interval_partial : forall i : interval N, wf_iv i -> rounds (iv_a i) -> rounds (iv_b i) ->
      exists p, leaf_logprob_interval true d supp cond i = Ok p /\ toP p = Pr dlaw s (fun w => in_iv i (w x)).
    Proof.
      intros i Wi Ra Rb. pose proof W as (W1 & W2 & W3 & W4 & _).
      destruct (interval_ok dlaw true d supp cond W1 (fun _ => W2) W3 W4 i Wi) as (p & Ep & Hp); auto. exists p. split; auto. rewrite Hp. symmetry. exact (leaf_prob (in_iv i)).
    Qed.
    (** which is the sum of the masses of its integers *)
    Theorem C45_sum_partial : forall (i : interval N) ks p, wf_iv i -> rounds (iv_a i) -> rounds (iv_b i) -> integers_of i ks ->
      leaf_logprob_interval true d supp cond i = Ok p -> toP p = sumR (map (weight s x) ks).
    Proof.
      intros i ks p Wi Ra Rb (Nd & H) Hp. destruct (C45_interval_partial i Wi Ra Rb) as (p' & E & Hp'). rewrite E in Hp. injection Hp as <-. rewrite Hp', (leaf_prob (in_iv i)). now apply law_points.
    Qed.
    (** the masses are those that logpdf reports *)
    Theorem C45_mass : forall k, exists q, leaf_logpdf true d supp cond (Fin (nint k)) = Ok q /\ toP q = weight s x k.
    Proof.
      intros k. pose proof W as (W1 & W2 & W3 & W4 & _). destruct (point_ok dlaw true d supp cond W1 (fun _ => W2) W3 W4 (nint k) eq_refl) as (q & E & H). exists q. split; auto.
      unfold weight. rewrite H, (leaf_prob (fun v => v = FNum (IZR k))). rewrite nint_ok. apply (law_ext (I:=leaf_den_law dlaw s)). intros v. apply ind_eq. split; intros; congruence.
    Qed.
    (** unbounded intervals: the series of the masses converges to the reported probability, if
        the distribution has no mass at infinity *)
    Theorem C45_series_partial : forall (i : interval N) p, wf_iv i -> rounds (iv_a i) -> rounds (iv_b i) ->
      Un_cv (fun n => Pr dlaw s (fun w => exists r, w x = FNum r /\ Rabs r <= INR n)) 1 ->
      leaf_logprob_interval true d supp cond i = Ok p ->
      Un_cv (fun n => sumR (map (weight s x) (chosen (fun k => in_iv i (FNum (IZR k))) (zrange (- Z.of_nat n) (2 * n + 1))))) (toP p).
    Proof.
      intros i p Wi Ra Rb T Hp. destruct (C45_interval_partial i Wi Ra Rb) as (p' & E & Hp'). rewrite E in Hp. injection Hp as <-. rewrite Hp', (leaf_prob (in_iv i)).
      intros e He. destruct (T e He) as (n0 & Hn). exists n0. intros n Hge. specialize (Hn n Hge). rewrite (leaf_prob (fun v => exists r, v = FNum r /\ Rabs r <= INR n)) in Hn.
      set (A := fun v => exists r, v = FNum r /\ Rabs r <= INR n) in *. rewrite <- (law_points (fun v => in_iv i v /\ A v)).
      - unfold R_dist in *.
        pose proof (law_01 L A) as B1.
        assert (K : leaf_den_law dlaw s (ind (in_iv i)) - leaf_den_law dlaw s (ind (fun v => in_iv i v /\ A v)) <= 1 - leaf_den_law dlaw s (ind A)).
        { rewrite <- (law_one L). rewrite <- !(law_minus L) by auto with bnd. apply (law_mono L); auto with bnd. intros v. unfold ind. destruct (dec (in_iv i v)), (dec (A v)), (dec (in_iv i v /\ A v)); try lra; tauto. }
        assert (K2 : leaf_den_law dlaw s (ind (fun v => in_iv i v /\ A v)) <= leaf_den_law dlaw s (ind (in_iv i))).
        { apply (law_mono L); auto with bnd. intros v. unfold ind. destruct (dec (in_iv i v)), (dec (in_iv i v /\ A v)); try lra; tauto. }
        rewrite Rabs_minus_sym in Hn. rewrite Rabs_right in Hn by lra. rewrite Rabs_minus_sym, Rabs_right; lra.
      - apply NoDup_filter, zrange_nodup.
      - intros k. rewrite chosen_in, zrange_in. assert (Q : (- Z.of_nat n <= k < - Z.of_nat n + Z.of_nat (2 * n + 1))%Z <-> Rabs (IZR k) <= INR n).
        { rewrite INR_IZR_INZ, <- abs_IZR. split; intros K; [apply IZR_le; lia|apply le_IZR in K; lia]. }
        rewrite Q. split.
        + intros (K1 & K2). split; auto. exists (IZR k). auto.
        + intros (K1 & r & K2 & K3). injection K2 as <-. auto.
    Qed.
    (** the same through logprob: the event x << i has the probability of the integers of i *)
    Theorem C45_logprob : forall (i : interval N) ks p, wf_leaf s -> wf_iv i -> gev (within_iv x i) -> integers_of i ks ->
      leaf_logprob io po fuel s (within_iv x i) = Ok p -> toP p = sumR (map (weight s x) ks).
    Proof.
      intros i ks p Wl Wi G (Nd & H) Hp. assert (Hv : forall w, holds (within_iv x i) w <-> in_iv i (w x)).
      { intros w. unfold within_iv. rewrite holds_basic. cbn [teval]. unfold in_iv. split.
        - intros (y & E & _ & K). injection E as <-. exact K.
        - intros K. exists (w x). split; auto. split; auto. destruct (w x); [exact Logic.I|destruct K]. }
      rewrite (C21_leaf io po fuel dlaw s (within_iv x i) p Wl G); auto.
      - unfold SpeSpec.prob. transitivity (Pr dlaw s (fun w => in_iv i (w x))); [|rewrite (leaf_prob (in_iv i)); now apply law_points].
        unfold Pr. apply (law_ext (I:=fun g => den dlaw s g w0)). intros w. apply ind_eq. apply Hv.
      - intros w. rewrite (den_leaf dlaw s) by reflexivity. apply (law_null L (fun _ => False)); auto with bnd.
        + rewrite (law_ext (I:=leaf_den_law dlaw s) _ (fun _ => 0)); [apply (law_const L)|]. intros v. now apply ind_false.
        + intros v _. apply ind_false. intros K. apply K. apply plain_regular. unfold within_iv. cbn. intuition discriminate.
      - intros _. unfold within_iv. repeat constructor.
    Qed.
  End Leaf.
End Discrete.

(** ** C46 *)
Section Partition.
  Context {N : numsys}.
  Notation enum := (ext (num N)).
  (** the values of a FiniteReal: finite numbers, each once *)
  Definition finite_set (vs : list enum) : Prop := Forall finite vs /\ NoDup (map eR vs).
  Definition lt_e (a b : enum) : Prop := elt (eR a) (eR b).
  Lemma contiguous_gaps : forall l last cur, Forall finite (last :: l) -> ForallOrdPairs lt_e (last :: l) ->
    forall bs1 b c bs2 y z, contiguous last (last :: cur) l = bs1 ++ b :: c :: bs2 -> hd_error (rev b) = Some y -> hd_error c = Some z -> eR z <> eR (eadd_bool y true).
  Proof.
    induction l as [|a l IH]; intros last cur Fl So bs1 b c bs2 y z E Hy Hz; cbn [contiguous] in E.
    - destruct bs1 as [|? [|]]; discriminate.
    - inversion Fl as [|? ? Fa Fl']; subst. inversion So as [|? ? _ So']; subst. destruct (eeqb a (eadd_bool last true)) eqn:Eq.
      + eapply (IH a (last :: cur)); eauto.
      + destruct bs1 as [|b0 bs1]; cbn [app] in E; injection E as E0 E1.
        * assert (Eb : rev b = last :: cur) by (rewrite <- E0; exact (rev_involutive (last :: cur))). rewrite Eb in Hy. cbn in Hy. injection Hy as <-.
          assert (Hc : hd_error c = Some a).
          { clear -E1. destruct l as [|a' l]; cbn [contiguous] in E1; [injection E1 as <- _; reflexivity|].
            assert (G : forall l last cur c bs, contiguous last (cur ++ [a]) l = c :: bs -> hd_error c = Some a).
            { clear. induction l as [|a' l IH]; intros last cur c bs E; cbn [contiguous] in E.
              - injection E as <- _. now rewrite rev_app_distr.
              - destruct (eeqb a' (eadd_bool last true)); [apply (IH a' (a' :: cur) c bs); exact E|]. injection E as <- _. now rewrite rev_app_distr. }
            destruct (eeqb a' (eadd_bool a true)); [apply (G l a' [a'] c bs2); exact E1|]. injection E1 as <- _. reflexivity. }
          rewrite Hc in Hz. injection Hz as <-. intros K. apply eeqb_eR in K. congruence.
        * eapply (IH a []); eauto.
  Qed.
  (** The runs are nonempty blocks of consecutive numbers; one after the other they are the
      given points in increasing order; between two neighbours there is a gap. *)
  Theorem C46_partition : forall vs : list enum, finite_set vs ->
    Forall (fun b => b <> [] /\ exists r, run r b) (partition_finite_real_contiguous vs) /\
    Permutation (List.concat (partition_finite_real_contiguous vs)) vs /\
    ForallOrdPairs lt_e (List.concat (partition_finite_real_contiguous vs)) /\
    forall bs1 b c bs2 y z, partition_finite_real_contiguous vs = bs1 ++ b :: c :: bs2 -> hd_error (rev b) = Some y -> hd_error c = Some z -> eR z <> eR (eadd_bool y true).
  Proof.
    intros vs (F & Nd). destruct (partition_runs vs F) as (A & B). split; auto. rewrite B. pose proof (sort_perm eleb vs) as P.
    assert (So : ForallOrdPairs lt_e (sort eleb vs)).
    { pose proof (sort_sorted eleb eleb_total eleb_trans vs) as SS. assert (Nd' : NoDup (map eR (sort eleb vs))) by (eapply Permutation_NoDup; [apply Permutation_map, P|exact Nd]).
      revert SS Nd'. generalize (sort eleb vs). clear. induction l as [|a l IH]; intros SS Nd; constructor.
      - inversion SS as [|? ? S1 S2]; subst. cbn [map] in Nd. inversion Nd as [|? ? N1 N2]; subst. rewrite Forall_forall in *. intros b Hb. specialize (S1 b Hb). assert (S1' : eltb b a = false) by (apply eleb_pos in S1; apply eltb_pos_f; lra). apply eltb_ele in S1'. clear S1. rename S1' into S1. destruct S1 as [S1|S1]; auto.
        exfalso. apply N1. rewrite S1. now apply in_map.
      - inversion SS; subst. cbn [map] in Nd. inversion Nd; subst. auto. }
    split; [now symmetry|]. split; auto. intros bs1 b c bs2 y z E. unfold partition_finite_real_contiguous in E. destruct (sort eleb vs) as [|a l] eqn:Es; [destruct bs1; discriminate|].
    assert (K : Forall finite (a :: l)).
    { rewrite <- Es. apply Forall_forall. intros q Hq. rewrite Forall_forall in F. apply F. now apply (sort_In eleb vs q). }
    exact (contiguous_gaps l a [] K So bs1 b c bs2 y z E).
  Qed.
  (** For integers the runs are maximal: no given point continues one. *)
  Definition integral (vs : list enum) : Prop := Forall integer_end vs.
  Lemma FOP_app : forall A (P : A -> A -> Prop) l m, ForallOrdPairs P (l ++ m) -> ForallOrdPairs P l /\ ForallOrdPairs P m /\ forall a b, In a l -> In b m -> P a b.
  Proof.
    intros A P l m. induction l as [|a l IH]; cbn [app]; intros H; [split; [constructor|]; split; auto; intros a b []|]. inversion H as [|? ? H1 H2]; subst. destruct (IH H2) as (K1 & K2 & K3). rewrite Forall_app in H1. destruct H1 as (H1 & H3).
    split; [constructor; auto|]. split; auto. intros c b [<-|Hc] Hb; auto. rewrite Forall_forall in H3. auto.
  Qed.
  Lemma elt_irrefl : forall a : enum, ~ lt_e a a.
  Proof. intros a H. unfold lt_e in H. destruct (eR a); cbn in H; auto. lra. Qed.
  Lemma run_last : forall r b y, run r b -> hd_error (rev b) = Some y -> forall x, In x b -> eR x = eR y \/ lt_e x y.
  Proof.
    intros r b y H Hy x Hx. destruct (rev b) as [|y' rb] eqn:Eb; [discriminate|]. cbn in Hy. injection Hy as ->. assert (E : b = rev rb ++ [y]) by (rewrite <- (rev_involutive b), Eb; reflexivity).
    apply In_nth_error in Hx. destruct Hx as (j & Hj). assert (Lj : (j < List.length b)%nat) by (apply nth_error_Some; congruence). pose proof (run_nth r b x j H Hj) as Ex.
    assert (Ey : eR y = Fin (r + INR (List.length b - 1))).
    { apply (run_nth r b); auto. rewrite E, app_length. cbn. rewrite nth_error_app2 by lia. replace (List.length (rev rb) + 1 - 1 - List.length (rev rb))%nat with 0%nat by lia. reflexivity. }
    unfold lt_e. rewrite Ex, Ey. cbn. destruct (Nat.eq_dec j (List.length b - 1)) as [->|Ne]; [now left|right]. assert (INR j < INR (List.length b - 1)) by (apply lt_INR; lia). lra.
  Qed.
  Theorem C46_maximal : forall vs : list enum, finite_set vs -> integral vs ->
    forall b y, In b (partition_finite_real_contiguous vs) -> hd_error (rev b) = Some y -> forall x, In x vs -> eR x <> eR (eadd_bool y true).
  Proof.
    intros vs Fs Iv b y Hb Hy x Hx E. destruct (C46_partition vs Fs) as (A & P & So & G). apply in_split in Hb. destruct Hb as (bs1 & bs2 & Eb).
    assert (Hyb : In y b) by (rewrite in_rev; destruct (rev b); [discriminate|injection Hy as ->; now left]).
    assert (Hyv : In y vs) by (apply (Permutation_in _ P); rewrite Eb, concat_app; apply in_app_iff; right; cbn; apply in_app_iff; auto).
    assert (Nb : b <> [] /\ exists r, run r b) by (rewrite Forall_forall in A; apply A; rewrite Eb; apply in_app_iff; right; now left). destruct Nb as (_ & r & Hr).
    assert (Lt : lt_e y x).
    { unfold lt_e. rewrite E. destruct Fs as (Ff & _). rewrite Forall_forall in Ff. destruct (Ff y Hyv) as (c & ->). cbn. rewrite nadd_ok, nint_ok. lra. }
    assert (Hxc : In x (List.concat (partition_finite_real_contiguous vs))) by (apply (Permutation_in _ (Permutation_sym P)); auto).
    rewrite Eb, concat_app in So, Hxc. cbn [List.concat] in So, Hxc. apply FOP_app in So. destruct So as (_ & So & S1). apply FOP_app in So. destruct So as (_ & So2 & S2).
    apply in_app_iff in Hxc. destruct Hxc as [Hxc|Hxc]; [|apply in_app_iff in Hxc; destruct Hxc as [Hxc|Hxc]].
    - assert (K : lt_e x y) by (apply S1; auto; apply in_app_iff; auto). clear -Lt K. unfold lt_e in *. destruct (eR x), (eR y); cbn in *; try tauto. lra.
    - destruct (run_last r b y Hr Hy x Hxc) as [K|K]; clear -Lt K; unfold lt_e in *; destruct (eR x), (eR y); cbn in *; try tauto; try discriminate; try (injection K as K); lra.
    - destruct bs2 as [|c bs2]; [destruct Hxc|]. assert (Nc : c <> []) by (rewrite Forall_forall in A; apply (A c); rewrite Eb; apply in_app_iff; right; right; now left).
      destruct c as [|z c]; [tauto|]. pose proof (G bs1 b (z :: c) bs2 y z Eb Hy eq_refl) as Gap. cbn [List.concat app] in So2, S2, Hxc.
      assert (Yz : lt_e y z) by (apply S2; auto; now left). destruct Hxc as [->|Hxc]; [auto|]. inversion So2 as [|? ? S3 _]; subst. rewrite Forall_forall in S3. specialize (S3 x Hxc).
      assert (Hzv : In z vs) by (apply (Permutation_in _ P); rewrite Eb, concat_app; apply in_app_iff; right; cbn; apply in_app_iff; right; now left).
      unfold integral in Iv. rewrite Forall_forall in Iv. pose proof (Iv y Hyv) as Iy. pose proof (Iv z Hzv) as Iz. destruct Fs as (Ff & _). rewrite Forall_forall in Ff. destruct (Ff y Hyv) as (cy & ->). destruct (Ff z Hzv) as (cz & ->).
      destruct Iy as (ky & Ky), Iz as (kz & Kz). unfold lt_e in *. rewrite E in S3. cbn in *. rewrite nadd_ok, nint_ok in *. rewrite Ky, Kz in *. apply lt_IZR in Yz. rewrite <- plus_IZR in S3. apply lt_IZR in S3. lia.
  Qed.
  (** each run is represented by a range with the same integers *)
  Definition represents (b : list enum) (i : interval N) : Prop := wf_iv i /\ forall k, in_iv i (FNum (IZR k)) <-> exists x, In x b /\ eR x = Fin (IZR k).
  Theorem C46_ranges : forall vs : list enum, finite_set vs -> integral vs ->
    exists l, flatten_basic true (BReal vs) = Ok l /\ Forall2 represents (partition_finite_real_contiguous vs) l.
  Proof.
    intros vs Fs Iv. destruct (C46_partition vs Fs) as (A & P & So & _). cbn [flatten_basic passert bind].
    assert (Ib : forall b x, In b (partition_finite_real_contiguous vs) -> In x b -> finite x /\ integer_end x).
    { intros b x Hb Hx. assert (In x vs) by (apply (Permutation_in _ P), in_concat; eauto). destruct Fs as (Ff & _). unfold integral in Iv. rewrite Forall_forall in Ff, Iv. auto. }
    revert A Ib. generalize (partition_finite_real_contiguous vs). clear. induction l as [|b bs IH]; intros A Ib; [exists []; split; [reflexivity|constructor]|].
    inversion A as [|? ? (Ne & r & Hr) A']; subst. destruct IH as (l & El & Fl); auto. { intros; eapply Ib; eauto; now right. }
    destruct b as [|y tl]; [tauto|]. set (z := last (y :: tl) y).
    assert (Hz : In z (y :: tl)). { unfold z. destruct (exists_last (l := y :: tl)) as (m & q & E); [discriminate|]. rewrite E, last_last. apply in_app_iff. right; now left. }
    destruct (Ib (y :: tl) y (or_introl eq_refl) (or_introl eq_refl)) as ((a & Ea) & Ia). destruct (Ib (y :: tl) z (or_introl eq_refl) Hz) as ((c & Ec) & Ic).
    assert (Le : toR a <= toR c).
    { pose proof (run_nth r (y :: tl) y 0%nat Hr eq_refl) as E1. assert (E2 : eR z = Fin (r + INR (List.length (y :: tl) - 1))) by (apply (run_nth r (y :: tl)); auto; apply last_nth_error; discriminate).
      rewrite Ea in E1. rewrite Ec in E2. cbn [eR emap] in E1, E2. injection E1 as ->. injection E2 as ->. change (INR 0) with 0. pose proof (pos_INR (List.length (y :: tl) - 1)) as Q. change (List.length (y :: tl) - 1)%nat with (List.length tl - 0)%nat in Q. lra. }
    assert (exists i, Range (N:=N) y z = Ok i) as (i & Ei).
    { rewrite Ea, Ec in *. unfold Range. cbn [int_or_isinf_neg int_or_isinf_pos bind]. destruct (is_int a) eqn:E1; [|exfalso; apply is_int_int in Ia; congruence]. destruct (is_int c) eqn:E2; [|exfalso; apply is_int_int in Ic; congruence]. cbn [passert bind].
      destruct (eeqb (Fin a) (Fin c)) eqn:Eq; cbn [eadd_bool]; unfold Interval_.
      - assert (Lt : eltb (Fin a) (Fin (nadd c (nint 1))) = true) by (apply eltb_elt; cbn; rewrite nadd_ok, nint_ok; lra). rewrite Lt. cbn [passert bind]. eauto.
      - assert (Lt : eltb (Fin a) (Fin c) = true). { apply eltb_elt. cbn. destruct Le as [Le|Le]; auto. exfalso. assert (eeqb (Fin a) (Fin c) = true) by (apply eeqb_eR; cbn; congruence). congruence. } rewrite Lt. cbn [passert bind]. eauto. }
    exists (i :: l). split.
    - cbn [mapM]. fold z. rewrite Ei. cbn [bind]. rewrite El. reflexivity.
    - constructor; auto. destruct (range_block r y tl i Hr Ei) as (Wi & _ & _ & _ & _ & K). split; auto.
  Qed.
  Lemma in_left : forall A B (R : A -> B -> Prop) l m a, Forall2 R l m -> In a l -> exists b, In b m /\ R a b.
  Proof. intros A B R l m a F. induction F as [|x y l m H F IH]; [intros []|]. intros [->|Hi]; [exists y|destruct (IH Hi) as (b & Hb & K); exists b]; split; auto; [now left|now right]. Qed.
  Lemma FOP_weaken : forall A (P Q : A -> A -> Prop) l, (forall a b, In a l -> In b l -> P a b -> Q a b) -> ForallOrdPairs P l -> ForallOrdPairs Q l.
  Proof.
    intros A P Q l H F. induction F as [|a l H1 H2 IH]; constructor.
    - rewrite Forall_forall in *. intros b Hb. apply H; auto; [now left|now right].
    - apply IH. intros b c Hb Hc. apply H; now right.
  Qed.
  (** so the ranges are disjoint on the integers and cover exactly the given points *)
  Theorem C46_cover : forall (vs : list enum) l, finite_set vs -> integral vs -> flatten_basic true (BReal vs) = Ok l ->
    (forall k, (exists i, In i l /\ in_iv i (FNum (IZR k))) <-> exists x, In x vs /\ eR x = Fin (IZR k)) /\
    ForallOrdPairs (fun i j => forall k m, in_iv i (FNum (IZR k)) -> in_iv j (FNum (IZR m)) -> (k + 1 < m)%Z) l.
  Proof.
    intros vs l Fs Iv H. destruct (C46_ranges vs Fs Iv) as (l' & E & F). rewrite E in H. injection H as ->. destruct (C46_partition vs Fs) as (A & P & So & G). pose proof (C46_maximal vs Fs Iv) as Mx.
    assert (Hv : forall x, In x (List.concat (partition_finite_real_contiguous vs)) <-> In x vs) by (intros x; split; apply Permutation_in; [exact P|now symmetry]).
    split.
    - intros k. split.
      + intros (i & Hi & K). destruct (Forall2_in_r _ _ _ _ _ _ F Hi) as (b & Hb & (_ & R)). apply R in K. destruct K as (x & Hx & Ex). exists x. split; auto. apply Hv, in_concat. eauto.
      + intros (x & Hx & Ex). apply Hv, in_concat in Hx. destruct Hx as (b & Hb & Hx). destruct (in_left _ _ _ _ _ _ F Hb) as (i & Hi & (_ & R)). exists i. split; auto. apply R. eauto.
    - assert (Gap : ForallOrdPairs (fun b c => forall x z, In x b -> In z c -> lt_e x z /\ eR z <> eR (eadd_bool x true)) (partition_finite_real_contiguous vs)).
      { assert (K : ForallOrdPairs (fun b c => forall x z, In x b -> In z c -> lt_e x z) (partition_finite_real_contiguous vs)).
        { revert So. generalize (partition_finite_real_contiguous vs). clear. induction l as [|b bs IH]; intros So; constructor; cbn [List.concat] in So; apply FOP_app in So; destruct So as (_ & S1 & S2); auto.
          apply Forall_forall. intros c Hc x z Hx Hz. apply S2; auto. apply in_concat. eauto. }
        eapply FOP_weaken; [|exact K]. intros b c Hb Hc K' x z Hx Hz. split; auto. intros Ez.
        assert (Hzv : In z vs) by (apply Hv, in_concat; eauto).
        rewrite Forall_forall in A. destruct (A b Hb) as (Ne & r & Hr). destruct (rev b) as [|y rb] eqn:Erb; [apply (f_equal (@rev _)) in Erb; rewrite rev_involutive in Erb; now subst|].
        assert (Hy : In y b) by (rewrite in_rev, Erb; now left).
        destruct (run_last r b y Hr ltac:(now rewrite Erb) x Hx) as [Q|Q].
        - apply (Mx b y Hb ltac:(now rewrite Erb) z Hzv). rewrite Ez. clear -Q. destruct x, y; cbn in *; try discriminate; auto. injection Q as Q. now rewrite !nadd_ok, Q.
        - specialize (K' y z Hy Hz). assert (Hxv : In x vs) by (apply Hv, in_concat; eauto). assert (Hyv : In y vs) by (apply Hv, in_concat; eauto).
          destruct Fs as (Ff & _). unfold integral in Iv. rewrite Forall_forall in Ff, Iv. pose proof (Iv x Hxv) as Ix. pose proof (Iv y Hyv) as Iy. destruct (Ff x Hxv) as (cx & ->). destruct (Ff y Hyv) as (cy & ->).
          destruct Ix as (kx & Kx), Iy as (ky & Ky). unfold lt_e in *. rewrite Ez in K'. cbn in *. rewrite nadd_ok, nint_ok in *. rewrite Kx, Ky in *. apply lt_IZR in Q. rewrite <- plus_IZR in K'. apply lt_IZR in K'. lia. }
      clear -F Gap. induction F as [|b i bs l (_ & R) F IH]; constructor; inversion Gap as [|? ? G1 G2]; subst; auto.
      apply Forall_forall. intros j Hj k m Hk Hm. destruct (Forall2_in_r _ _ _ _ _ _ F Hj) as (c & Hc & (_ & R')). rewrite Forall_forall in G1. apply R in Hk. apply R' in Hm. destruct Hk as (x & Hx & Ex), Hm as (z & Hz & Ez).
      destruct (G1 c Hc x z Hx Hz) as (K1 & K2). unfold lt_e in K1. rewrite Ex, Ez in K1. cbn in K1. apply lt_IZR in K1. destruct (Z.eq_dec m (k + 1)) as [->|]; [|lia]. exfalso. apply K2. rewrite Ez. destruct x as [|q|]; cbn in *; try discriminate. injection Ex as Ex. rewrite nadd_ok, nint_ok, Ex, plus_IZR. reflexivity.
  Qed.
End Partition.

Definition all_leaf_properties := (@C45_integers, @C45_interval_partial, @C45_sum_partial, @C45_mass, @C45_series_partial, @C45_logprob, @C46_partition, @C46_maximal, @C46_ranges, @C46_cover).
Print Assumptions all_leaf_properties.
