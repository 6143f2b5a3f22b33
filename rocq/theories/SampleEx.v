(** Cases and refutations for C41. *)
From Coq Require Import List Bool String Reals Lra Lia ZArith QArith Qabs Qreals Permutation FunctionalExtensionality.
From Verif Require Import Base Num Sets SetSpec SetIv SetProofs SetOr SetOps SetAlg SetBuilt
  Poly Trans TransSpec TransFacts PolyProofs InvProofs InvMain EvProofs ArithProofs PolyEx
  Dnf DnfSpec DnfProofs DnfUnion Logs Spe SpeSpec SpeFacts SpeRect LeafProofs LeafEvents LeafCond SpeCons LeafGiven MemoProofs PropTrans NormSorts LogprobProofs LogprobTop SpeEq SimplifyProofs CondTypes CondProofs CondTop PropSpe Uniform Instances SpeEx
  Sample SampleSpec SampleFacts SampleSim SampleLaw SampleInv SampleExp PropSample.
Import ListNotations.
Local Open Scope R_scope.
Local Open Scope string_scope.

(** ** A random source *)
Definition ppfQ (d : dist DQ) (p : R) : R := p.
Definition ulawQ (f : R -> R) : R := num_law (D:=DQ) elaw DUnif f.
(** two blocks in either order with equal probability; longer lists stay as they are *)
Definition slawQ (m : nat) (f : list nat -> R) : R := if Nat.eqb m 2 then (f [0; 1]%nat + f [1; 0]%nat) / 2 else f (seq 0 m).
Lemma ulawQ_cdf : forall x, 0 <= x <= 1 -> ulawQ (ind (fun u => u <= x)) = x.
Proof.
  intros x H. unfold ulawQ, num_law. cbn [elaw]. transitivity (unif (ind (at_most (Fin x)))).
  - apply law_ext. intros [r|s]; [|symmetry; apply ind_false; intros (r & E & _); discriminate]. apply ind_eq. split.
    + intros K. exists r. split; auto. now apply ele_fin.
    + intros (r' & E & K). injection E as <-. now apply ele_fin in K.
  - rewrite unif_cdf. cbn. rewrite Rmax_right, Rmin_right by lra. reflexivity.
Qed.
Lemma ulawQ_ok : uniform_law ulawQ.
Proof.
  pose proof (num_law_law (D:=DQ) elaw false DUnif unif_dist) as L. split; [exact L| |exact ulawQ_cdf].
  pose proof (ulawQ_cdf 1 ltac:(lra)) as H1. pose proof (ulawQ_cdf 0 ltac:(lra)) as H0.
  transitivity (ulawQ (ind (fun u => u <= 1)) - ulawQ (ind (fun u => u <= 0))); [|lra]. rewrite <- (law_minus L) by apply bnd_ind.
  assert (P : ulawQ (ind (fun u => u = 1)) = 0).
  { rewrite <- (unif_point 1). unfold ulawQ, num_law. apply law_ext. intros [r|s]; [apply ind_eq; split; congruence|]. symmetry. apply ind_false. discriminate. }
  apply (law_as L _ _ _ P); auto with bnd. intros u Hu. destruct (dec (u <= 0)) as [A|A]; destruct (dec (u <= 1)) as [B|B]; rewrite ?(ind_true _ (fun u => u <= 0)), ?(ind_false _ (fun u => u <= 0)), ?(ind_true _ (fun u => u <= 1)), ?(ind_false _ (fun u => u <= 1)) by auto; try lra.
  - rewrite ind_false by lra. lra.
  - rewrite ind_true by lra. lra.
  - rewrite ind_false by lra. lra.
Qed.
Lemma slawQ_ok : shuffle_law slawQ.
Proof.
  intros m. unfold slawQ. destruct (Nat.eqb m 2) eqn:E.
  - apply Nat.eqb_eq in E. subst m. split.
    + split; intros; try lra. specialize (H0 [0; 1]%nat) as A. specialize (H0 [1; 0]%nat) as B. lra.
    + intros f g H. now rewrite (H [0; 1]%nat (Permutation_refl _)), (H [1; 0]%nat (perm_swap 1%nat 0%nat [])).
  - split; [apply law_point|]. intros f g H. apply H. apply Permutation_refl.
Qed.
Lemma ppfQ_ok : quantile (D:=DQ) elaw false DUnif (ppfQ DUnif).
Proof.
  assert (C : forall x, cdf (D:=DQ) elaw DUnif x = Rmin 1 (Rmax 0 x)) by (intros x; exact (unif_cdf (Fin x))).
  split; [|discriminate|].
  - intros p x Hp. rewrite C. unfold ppfQ, Rmin, Rmax. repeat destruct (Rle_dec _ _); split; intros; lra.
  - intros _ x e He. exists (x - e / 2). rewrite !C. split; [lra|]. unfold Rmin, Rmax. repeat destruct (Rle_dec _ _); lra.
Qed.

(** ** An expression: a mixture of products, with a conditioned leaf and a derived variable *)
Definition uh : spQ := RealLeaf (D:=DQ) false "X" DUnif (mkIv (qn (1#4)) (qn (3#4)) true false) true exenv.
Definition q1 : spQ := ProductSPE [uh; y1].
Definition sy : spQ := SumSPE (S:=LQ) [(q1, 1#2); (p2, 1#4); (p3, 1#4)]%Q.
Lemma cut_unif : forall a b, 0 <= a <= b -> b <= 1 -> elaw DUnif (ind (fun v => exists r, v = FNum r /\ a < r <= b)) = b - a.
Proof.
  intros a b H Hb. cbn [elaw]. transitivity (unif (ind (at_most (Fin b))) - unif (ind (at_most (Fin a)))).
  - rewrite <- (law_minus unif_law) by auto with bnd. apply law_ext. intros [r|s].
    + destruct (dec (r <= a)) as [A|A]; destruct (dec (r <= b)) as [B|B].
      * rewrite ind_false by (intros (r' & E & K); injection E as <-; lra). rewrite !ind_true by (exists r; split; auto; apply ele_fin; lra). lra.
      * lra.
      * rewrite !ind_true by (exists r; split; auto; (lra || (apply ele_fin; lra))). rewrite ind_false by (intros (r' & E & K); injection E as <-; apply ele_fin in K; lra). lra.
      * rewrite !ind_false by (intros (r' & E & K); injection E as <-; (apply ele_fin in K || idtac); lra). lra.
    + rewrite !ind_false by (intros (r & E & _); discriminate). lra.
  - rewrite !unif_cdf. cbn. rewrite !Rmax_right, !Rmin_right by lra. lra.
Qed.
Lemma uh_wf : wf_leaf elaw uh.
Proof.
  apply real_wf; [now apply iv_wf|discriminate|exact unif_dist|].
  replace (ind (in_iv (N:=QS) (mkIv (qn (1#4)) (qn (3#4)) true false))) with (ind (fun v => exists r, v = FNum r /\ 1/4 < r <= 3/4)).
  - rewrite cut_unif by lra. lra.
  - apply ind_iff. intros [r|s]; split.
    + intros (r' & E & K). injection E as <-. apply in_iv_num. cbn. unfold Q2R; cbn. lra.
    + intros K. apply in_iv_num in K. cbn in K. unfold Q2R in K; cbn in K. exists r. split; [auto|lra].
    + intros (r' & E & _). discriminate.
    + intros [].
Qed.
Lemma q1_wf : wf_spe elaw q1.
Proof. apply prod_wf; [exact uh_wf|apply y_wf; easy|]. apply leaf_apart, env_vars. Qed.
Lemma sy_wf : wf_spe elaw sy.
Proof.
  split; [cbn [All fst]; auto using q1_wf, p2_wf, p3_wf|]. split.
  - cbn [map sumR fold_right snd]. rewrite !lqP' by reflexivity. unfold Q2R; cbn. lra.
  - intros c d [<-|[<-|[<-|[]]]] [<-|[<-|[<-|[]]]] x H; exact H.
Qed.
Lemma iv_is_num : forall (i : interval QS) v, in_iv i v -> is_num v.
Proof. intros i [r|s] H; [now exists r|contradiction]. Qed.
Lemma ex_settled : forall disc d supp cond, settled (D:=DQ) (RealLeaf (D:=DQ) disc "X" d supp cond exenv).
Proof.
  intros disc d supp cond. split; [intros p [<-|[<-|[]]]; exact Logic.I|]. intros w v H. apply iv_is_num in H. exact (proj1 (ex_fine w v H)).
Qed.
Lemma ax_settled : settled (D:=DQ) ax.
Proof. split; [intros p [<-|[<-|[]]]; exact Logic.I|]. intros w v H. cbn in H. subst v. apply (ex_fine w (FNum (toR (5%Q : num QS)))). eexists; reflexivity. Qed.
Lemma sy_settled : settled sy.
Proof.
  assert (P : forall x y : spQ, settled x -> settled y -> settled (ProductSPE [x; y])) by (intros x y Hx Hy; exact (conj Hx (conj Hy Logic.I))).
  exact (conj (P uh y1 (ex_settled _ _ _ _) Logic.I) (conj (P dx y2 (ex_settled _ _ _ _) Logic.I) (conj (P ax y1 ax_settled Logic.I) Logic.I))).
Qed.
Lemma sy_inverted : inverted (D:=DQ) elaw ppfQ sy.
Proof.
  assert (P : forall x y : spQ, inverted (D:=DQ) elaw ppfQ x -> inverted (D:=DQ) elaw ppfQ y -> inverted (D:=DQ) elaw ppfQ (ProductSPE [x; y])) by (intros x y Hx Hy; exact (conj Hx (conj Hy Logic.I))).
  assert (Hd : inverted (D:=DQ) elaw ppfQ dx) by (intros E; discriminate).
  exact (conj (P uh y1 (fun _ => ppfQ_ok) Logic.I) (conj (P dx y2 Hd Logic.I) (conj (P ax y1 Logic.I Logic.I) Logic.I))).
Qed.
(** numbers that the distributions give *)
Definition drawnQ (d : dist DQ) (x : R) : Prop := match d with DUnif => 0 <= x <= 1 | DFin l => l = [] \/ exists p, In p l /\ x = IZR (fst p) end.
Lemma drawnQ_some : forall d, exists x, drawnQ d x.
Proof. intros [[|p l]|]; [exists 0; now left|exists (IZR (fst p)); right; exists p; split; auto; now left|exists 0; cbn; lra]. Qed.
Lemma drawnQ_full : forall disc d, dist_ok (D:=DQ) elaw disc d -> num_law (D:=DQ) elaw d (ind (drawnQ d)) = 1.
Proof.
  intros disc [l|] Wo.
  - transitivity (elaw (DFin l) (ind is_num)); [|exact (d_num _ _ _ Wo)]. unfold num_law. cbn [elaw]. apply sumR_ext. intros p Hp. f_equal. rewrite !ind_true; auto; [eexists; reflexivity|]. right. eauto.
  - transitivity (ulawQ (fun _ => 1)); [|apply (law_one (u_law _ ulawQ_ok))]. apply (law_as (u_law _ ulawQ_ok) (fun u => ~ 0 < u < 1)); auto with bnd.
    + apply (law_full (u_law _ ulawQ_ok)), (u_in _ ulawQ_ok).
    + intros u Hu. apply ind_true. cbn. destruct (dec (0 < u < 1)); tauto || lra.
Qed.
Lemma sy_sourced : sourced (D:=DQ) drawnQ elaw ppfQ sy.
Proof.
  assert (P : forall x y : spQ, sourced (D:=DQ) drawnQ elaw ppfQ x -> sourced (D:=DQ) drawnQ elaw ppfQ y -> sourced (D:=DQ) drawnQ elaw ppfQ (ProductSPE [x; y])) by (intros x y Hx Hy; exact (conj Hx (conj Hy Logic.I))).
  assert (Hd : sourced (D:=DQ) drawnQ elaw ppfQ dx).
  { intros x [K|(p & [<-|[<-|[<-|[]]]] & ->)]; [discriminate| | |]; apply in_iv_num; cbn; unfold Q2R; cbn; lra. }
  exact (conj (P uh y1 ppfQ_ok Logic.I) (conj (P dx y2 Hd Logic.I) (conj (P ax y1 Logic.I Logic.I) Logic.I))).
Qed.
Lemma sy_flat : flat sy.
Proof. cbn. tauto. Qed.
(** the indicator of X <= 1/2 and Y = 'a' *)
Definition half_x (v : fval) : R := ind (fun v => exists r, v = FNum r /\ r <= 1/2) v.
Definition is_a (v : fval) : R := match v with FStr z => if String.eqb z "a" then 1 else 0 | _ => 0 end.
Definition fxy (w : asg) : R := half_x (w "X") * is_a (w "Y").
Lemma is_a_bnd : bnd is_a.
Proof. exists 1. intros [r|z]; cbn; [rewrite Rabs_R0; lra|]. destruct (String.eqb z "a"); rewrite ?Rabs_R1, ?Rabs_R0; lra. Qed.
Lemma half_step : forall w, step (fun v => half_x (place "X" exenv w v "X")).
Proof. intros w. exact (step_le (1/2)). Qed.
Lemma fxy_fair : fair_fun sy fxy.
Proof.
  apply (fair_mult _ (fun w => half_x (w "X")) (fun w => is_a (w "Y"))); apply fair_var; cbn [fair All sy fst q1 p2 p3 y1 y2 uh dx ax];
    repeat split; try apply is_a_bnd; try apply bnd_ind; try discriminate; intros _ Hx; try apply half_step; destruct Hx as [E|[E|[]]]; discriminate.
Qed.
Lemma q1_fair : fair_fun q1 fxy.
Proof. exact (fair_child [(q1, 1#2); (p2, 1#4); (p3, 1#4)]%Q (q1, (1#2)%Q) fxy (or_introl eq_refl) fxy_fair). Qed.
Notation unit_open := (fun u : R => 0 < u < 1).

Example C41_outcomes_case : wf_spe elaw sy /\ settled sy /\ sourced (D:=DQ) drawnQ elaw ppfQ sy /\ exists l, outcome (D:=DQ) drawnQ unit_open (sample ppfQ sy 3) (Ok l).
Proof.
  split; [exact sy_wf|]. split; [exact sy_settled|]. split; [exact sy_sourced|]. exact (C41_possible elaw ppfQ drawnQ sy 3 drawnQ_some drawnQ_full sy_wf sy_settled sy_sourced).
Qed.
Lemma zy_vars : forall x, In x ["Z"; "Y"] -> vars sy x.
Proof. intros x [<-|[<-|[]]]; cbn; tauto. Qed.
Example C41_subset_case : (forall x, In x ["Z"; "Y"] -> vars sy x) /\ exists l, outcome (D:=DQ) drawnQ unit_open (sample_subset ppfQ sy false ["Z"; "Y"] 3) (Ok l).
Proof. split; [exact zy_vars|]. exact (C41_subset_possible elaw ppfQ drawnQ sy false ["Z"; "Y"] 3 drawnQ_some drawnQ_full sy_wf sy_settled sy_sourced zy_vars). Qed.
(** the length of the list of arguments: any function will do *)
Example C41_func_case : exists l, outcome (D:=DQ) drawnQ unit_open (sample_func ppfQ sy ["Z"; "Y"] (@List.length sv) 3) (Ok l).
Proof. exact (C41_func_possible elaw ppfQ drawnQ sy nat ["Z"; "Y"] (@List.length sv) 3 drawnQ_some drawnQ_full sy_wf sy_settled sy_sourced zy_vars). Qed.

(** ** Expected values *)
Lemma with_y : forall (x : spQ) a b w, den elaw (ProductSPE [x; NominalLeaf "Y" [("a", a); ("b", b)]]) fxy w = den elaw x (fun w => half_x (w "X") * Q2R a) w.
Proof.
  intros x a b w. cbn [den den_prod]. f_equal. extensionality w'. unfold nom_law, fxy, upd. cbn. ring.
Qed.
Lemma uh_half : forall c w, den elaw uh (fun w => half_x (w "X") * c) w = c / 2.
Proof.
  intros c w. cbn [den uh]. unfold real_law.
  assert (Ei : forall v, ind (in_iv (N:=QS) (mkIv (qn (1#4)) (qn (3#4)) true false)) v = ind (fun v => exists r, v = FNum r /\ 1/4 < r <= 3/4) v).
  { intros v. apply ind_eq. destruct v as [r|s]; split.
    - intros K. apply in_iv_num in K. cbn in K. unfold Q2R in K; cbn in K. exists r. split; [auto|lra].
    - intros (r' & E & K). injection E as <-. apply in_iv_num. cbn. unfold Q2R; cbn. lra.
    - intros [].
    - intros (r' & E & _). discriminate. }
  assert (Em : elaw DUnif (ind (in_iv (N:=QS) (mkIv (qn (1#4)) (qn (3#4)) true false))) = 1/2).
  { transitivity (elaw DUnif (ind (fun v => exists r, v = FNum r /\ 1/4 < r <= 3/4))); [apply law_ext; exact Ei|]. rewrite cut_unif; lra. }
  rewrite Em.
  transitivity (elaw DUnif (fun v => c * ind (fun v => exists r, v = FNum r /\ 1/4 < r <= 1/2) v) / (1/2)).
  - f_equal. apply law_ext. intros v. rewrite Ei. change (place "X" exenv w v "X") with v. unfold half_x. destruct v as [r|s].
    + destruct (dec (r <= 1/2)) as [A|A]; destruct (dec (1/4 < r)) as [B|B]; rewrite ?(ind_true _ (fun v => exists r, v = FNum r /\ r <= 1/2)), ?(ind_false _ (fun v => exists r, v = FNum r /\ r <= 1/2)) by (eauto || (intros (r' & E & K); injection E as <-; lra)).
      * rewrite !ind_true by (exists r; split; auto; lra). ring.
      * rewrite !ind_false by (intros (r' & E & K); injection E as <-; lra). ring.
      * rewrite (ind_false _ (fun v => exists r, v = FNum r /\ 1/4 < r <= 1/2)) by (intros (r' & E & K); injection E as <-; lra). ring.
      * rewrite (ind_false _ (fun v => exists r, v = FNum r /\ 1/4 < r <= 1/2)) by (intros (r' & E & K); injection E as <-; lra). ring.
    + rewrite !ind_false by (intros (r & E & _); discriminate). ring.
  - rewrite (law_scale (d_law _ _ _ unif_dist)) by apply bnd_ind. rewrite cut_unif by lra. field.
Qed.
Lemma half_at : forall r, half_x (FNum r) = if Rle_dec r (1/2) then 1 else 0.
Proof. intros r. unfold half_x. destruct (Rle_dec r (1/2)); [apply ind_true; eauto|apply ind_false; intros (r' & E & K); injection E as <-; lra]. Qed.
Lemma q1_den : den elaw q1 fxy w0 = 1/8.
Proof. unfold q1, y1. rewrite with_y, uh_half. unfold Q2R; cbn. lra. Qed.
Lemma sy_den : den elaw sy fxy w0 = 1/8.
Proof.
  change (sumR [toP ((1#2)%Q : lg LQ) * den elaw q1 fxy w0; toP ((1#4)%Q : lg LQ) * den elaw p2 fxy w0; toP ((1#4)%Q : lg LQ) * den elaw p3 fxy w0] = 1/8). rewrite q1_den, !lqP' by reflexivity. unfold p2, p3, y1, y2. rewrite !with_y.
  replace (den elaw dx (fun w => half_x (w "X") * Q2R (1#2)) w0) with (1/4).
  - replace (den elaw ax (fun w => half_x (w "X") * Q2R (1#4)) w0) with 0; [unfold sumR, Q2R; cbn; lra|].
    change (0 = half_x (FNum (Q2R 5)) * Q2R (1#4)). rewrite half_at. destruct (Rle_dec (Q2R 5) (1/2)) as [K|K]; [exfalso; unfold Q2R in K; cbn in K; lra|ring].
  - change (1/4 = sumR [half_x (FNum (IZR 0)) * Q2R (1#2) * Q2R (1#2); half_x (FNum (IZR 2)) * Q2R (1#2) * Q2R (1#4); half_x (FNum (IZR 3)) * Q2R (1#2) * Q2R (1#4)]). rewrite !half_at.
    destruct (Rle_dec 0 (1/2)), (Rle_dec 2 (1/2)), (Rle_dec 3 (1/2)); try lra. unfold sumR, Q2R; cbn. lra.
Qed.
Notation expectQ := (expect (D:=DQ) elaw ulawQ slawQ).
Example C41_one_case : wf_spe elaw sy /\ settled sy /\ inverted (D:=DQ) elaw ppfQ sy /\ fair_fun sy fxy /\ expectQ (sample ppfQ sy 1) (together [fxy] w0) = 1/8.
Proof.
  split; [exact sy_wf|]. split; [exact sy_settled|]. split; [exact sy_inverted|]. split; [exact fxy_fair|]. rewrite <- sy_den. exact (C41_one elaw ppfQ ulawQ slawQ ulawQ_ok slawQ_ok sy fxy w0 sy_wf sy_settled sy_inverted fxy_fair).
Qed.
Example C41_mean_case : flat sy /\ expectQ (sample ppfQ sy 8) (total fxy 8 w0) = 1.
Proof.
  split; [exact sy_flat|]. rewrite (C41_mean_partial elaw ppfQ ulawQ slawQ ulawQ_ok slawQ_ok sy fxy 8 w0 sy_wf sy_settled sy_inverted sy_flat fxy_fair). rewrite sy_den. cbn. lra.
Qed.
(** the conditioned branch alone has no sums *)
Lemma q1_settled : settled q1.
Proof. exact (proj1 sy_settled). Qed.
Lemma q1_inverted : inverted (D:=DQ) elaw ppfQ q1.
Proof. exact (proj1 sy_inverted). Qed.
Example C41_independent_case : sumfree q1 /\ expectQ (sample ppfQ q1 2) (together [fxy; fxy] w0) = 1/64.
Proof.
  assert (F : sumfree q1) by (cbn; tauto). split; [exact F|].
  transitivity (prodR (map (fun f => den elaw q1 f w0) [fxy; fxy])).
  - exact (C41_independent_partial elaw ppfQ ulawQ slawQ ulawQ_ok slawQ_ok q1 [fxy; fxy] w0 q1_wf q1_settled q1_inverted F (Forall_cons _ q1_fair (Forall_cons _ q1_fair (Forall_nil _)))).
  - cbn [map prodR fold_right]. rewrite q1_den. unfold prodR; cbn. lra.
Qed.

(** ** What does not hold *)
(** The blocks of samples that come from the same branch of a mixture stay together: the code shuffles the
    blocks, not the samples.  A mixture of 0 (probability 1/4) and 1 (probability 3/4), three samples: *)
Definition zero_or_one (x : string) : spQ := SumSPE (S:=LQ) [(AtomicLeaf (N:=QS) x 0%Q (base_env x), 1#4); (AtomicLeaf (N:=QS) x 1%Q (base_env x), 3#4)]%Q.
Definition at0 (x : string) : sdict := [(x, SNum (Q2R 0))].
Definition at1 (x : string) : sdict := [(x, SNum (Q2R 1))].
Lemma atom_draws : forall x (a : Q) n, sample (D:=DQ) ppfQ (AtomicLeaf (N:=QS) x a (base_env x)) n = Ret (repeat [(x, SNum (Q2R a))] n).
Proof.
  intros x a n. unfold sample, leaf_sample, leaf_subset, just. cbn [leaf_tenv leaf_sym base_env map fst forallb existsb draws gbind is_nil negb]. rewrite String.eqb_refl. cbn [orb andb]. f_equal.
  induction n; cbn [repeat map]; [reflexivity|now rewrite IHn].
Qed.
Definition weights2 : list (lg LQ) := [(1#4)%Q : lg LQ; (3#4)%Q : lg LQ].
Lemma flip2 : forall f, index_law (normalize (map (fun w : lg LQ => toP w / sumR (map toP weights2)) weights2)) f = 1/4 * f 0%nat + 3/4 * f 1%nat.
Proof.
  intros f. unfold weights2. cbn [map]. unfold index_law, normalize. cbn [map seq List.length nth sumR fold_right]. rewrite !lqP' by reflexivity. unfold Q2R; cbn. field.
Qed.
Definition three_of (x : string) (sel : list nat) : gen (D:=DQ) (list sdict) :=
  gbind (gmapM (fun i => child [fun n => Ret (repeat (at0 x) n); fun n => Ret (repeat (at1 x) n)] i (count_occ Nat.eq_dec sel i)) (keys_of sel)) (fun blocks =>
    Shuffle (List.length blocks) (fun perm => Ret (List.concat (map (fun j => nth j blocks []) perm)))).
Lemma three_eq : forall x n F, expectQ (sample ppfQ (zero_or_one x) n) F = iid (fun f => 1/4 * f 0%nat + 3/4 * f 1%nat) n (fun sel => expectQ (three_of x sel) F).
Proof.
  intros x n F. unfold zero_or_one. cbn [sample map fst snd].
  transitivity (expectQ (sample_many (D:=DQ) weights2 n (child [fun n => Ret (repeat (at0 x) n); fun n => Ret (repeat (at1 x) n)])) F).
  - f_equal. unfold weights2. f_equal. f_equal. f_equal; [extensionality m; apply atom_draws|]. f_equal. extensionality m. apply atom_draws.
  - unfold sample_many. cbn [expect]. f_equal. extensionality f. apply flip2.
Qed.
Lemma three : forall x F, expectQ (sample ppfQ (zero_or_one x) 3) F =
  1/64 * F (Ok [at0 x; at0 x; at0 x]) + 9/128 * (F (Ok [at0 x; at0 x; at1 x]) + F (Ok [at1 x; at0 x; at0 x]))
  + 27/128 * (F (Ok [at0 x; at1 x; at1 x]) + F (Ok [at1 x; at1 x; at0 x])) + 27/64 * F (Ok [at1 x; at1 x; at1 x]).
Proof.
  intros x F. rewrite three_eq. cbn [iid].
  change (expectQ (three_of x [0; 0; 0]%nat) F) with (F (Ok [at0 x; at0 x; at0 x])).
  change (expectQ (three_of x [1; 1; 1]%nat) F) with (F (Ok [at1 x; at1 x; at1 x])).
  change (expectQ (three_of x [0; 0; 1]%nat) F) with ((F (Ok [at0 x; at0 x; at1 x]) + F (Ok [at1 x; at0 x; at0 x])) / 2).
  change (expectQ (three_of x [0; 1; 0]%nat) F) with ((F (Ok [at0 x; at0 x; at1 x]) + F (Ok [at1 x; at0 x; at0 x])) / 2).
  change (expectQ (three_of x [1; 0; 0]%nat) F) with ((F (Ok [at1 x; at0 x; at0 x]) + F (Ok [at0 x; at0 x; at1 x])) / 2).
  change (expectQ (three_of x [0; 1; 1]%nat) F) with ((F (Ok [at0 x; at1 x; at1 x]) + F (Ok [at1 x; at1 x; at0 x])) / 2).
  change (expectQ (three_of x [1; 0; 1]%nat) F) with ((F (Ok [at1 x; at1 x; at0 x]) + F (Ok [at0 x; at1 x; at1 x])) / 2).
  change (expectQ (three_of x [1; 1; 0]%nat) F) with ((F (Ok [at1 x; at1 x; at0 x]) + F (Ok [at0 x; at1 x; at1 x])) / 2).
  field.
Qed.
Lemma base_ok : forall x, env_ok (N:=QS) x (base_env x).
Proof. intros x. split; [constructor|]. intros y t H. cbn in H. destruct (String.eqb y x); [injection H as <-; split; exact Logic.I|discriminate]. Qed.
Lemma base_cons : forall x w v, env_fine (N:=QS) (base_env x) (place (N:=QS) x (base_env x) w v).
Proof.
  intros x w v. split; intros y t H; cbn in H; destruct (String.eqb y x) eqn:E; try discriminate; injection H as <-; [|exact Logic.I]. apply String.eqb_eq in E. subst y. cbn [teval]. reflexivity.
Qed.
Lemma atom_wf : forall x (a : Q), wf_leaf (D:=DQ) elaw (AtomicLeaf (N:=QS) x a (base_env x)).
Proof. intros x a. split; [apply base_ok|]. intros w. cbn [den]. apply ind_false. intros K. apply K, base_cons. Qed.
Lemma atom_settled : forall x (a : Q), settled (D:=DQ) (AtomicLeaf (N:=QS) x a (base_env x)).
Proof. intros x a. split; [intros p [<-|[]]; exact Logic.I|]. intros w v _. exact (proj1 (base_cons x w v)). Qed.
Lemma mix_wf : forall x, wf_spe elaw (zero_or_one x).
Proof.
  intros x. refine (conj (conj (atom_wf x 0%Q) (conj (atom_wf x 1%Q) Logic.I)) (conj _ _)).
  - cbn [map sumR fold_right snd]. rewrite !lqP' by reflexivity. unfold Q2R; cbn. lra.
  - intros c d [<-|[<-|[]]] [<-|[<-|[]]] y H; exact H.
Qed.
Lemma mix_settled : forall x, settled (zero_or_one x).
Proof. intros x. exact (conj (atom_settled x 0%Q) (conj (atom_settled x 1%Q) Logic.I)). Qed.
Lemma mix_inverted : forall x, inverted (D:=DQ) elaw ppfQ (zero_or_one x).
Proof. intros x. exact (conj Logic.I (conj Logic.I Logic.I)). Qed.
(** the indicator that x is r *)
Definition is_at (x : string) (r : R) (w : asg) : R := ind (fun v => v = FNum r) (w x).
Lemma mix_fair : forall x r, fair_fun (zero_or_one x) (is_at x r).
Proof. intros x r. apply (fair_var _ x (ind (fun v => v = FNum r))). cbn [fair All zero_or_one fst]. repeat split; apply bnd_ind. Qed.
Lemma is_at_at : forall x q r w, is_at x r (onto [(x, SNum (Q2R q))] w) = if Req_EM_T (Q2R q) r then 1 else 0.
Proof.
  intros x q r w. unfold is_at, onto. cbn [sget]. rewrite String.eqb_refl. cbn [fval_of value_or]. destruct (Req_EM_T (Q2R q) r) as [->|K]; [now apply ind_true|]. apply ind_false. congruence.
Qed.
Lemma Q01 : Q2R 0 = 0 /\ Q2R 1 = 1.
Proof. unfold Q2R; cbn. split; lra. Qed.
Lemma at_vals : forall x w, is_at x 0 (onto (at0 x) w) = 1 /\ is_at x 0 (onto (at1 x) w) = 0 /\ is_at x 1 (onto (at0 x) w) = 0 /\ is_at x 1 (onto (at1 x) w) = 1.
Proof.
  intros x w. unfold at0, at1. rewrite !is_at_at. destruct Q01 as (-> & ->). destruct (Req_EM_T 0 0), (Req_EM_T 1 0), (Req_EM_T 0 1), (Req_EM_T 1 1); lra.
Qed.
Lemma mix_den2 : forall x f w, den elaw (zero_or_one x) f w = 1/4 * f (upd w x (FNum 0)) + 3/4 * f (upd w x (FNum 1)).
Proof.
  intros x f w. set (u := fun a : Q => upd (upd w x (FNum (Q2R a))) x (upd w x (FNum (Q2R a)) x)).
  change (den elaw (zero_or_one x) f w) with (sumR [toP ((1#4)%Q : lg LQ) * f (u 0%Q); toP ((3#4)%Q : lg LQ) * f (u 1%Q)]).
  assert (E : forall a, u a = upd w x (FNum (Q2R a))) by (intros a; extensionality y; unfold u, upd; rewrite String.eqb_refl; destruct (String.eqb x y); reflexivity).
  rewrite !E, !lqP' by reflexivity. destruct Q01 as (-> & ->). unfold sumR, Q2R; cbn. lra.
Qed.
Lemma is_at_upd : forall x r a w, is_at x r (upd w x (FNum a)) = if Req_EM_T a r then 1 else 0.
Proof. intros x r a w. unfold is_at, upd. rewrite String.eqb_refl. destruct (Req_EM_T a r) as [->|K]; [now apply ind_true|apply ind_false; congruence]. Qed.
Lemma mix_den : forall x r w, den elaw (zero_or_one x) (is_at x r) w = 1/4 * (if Req_EM_T 0 r then 1 else 0) + 3/4 * (if Req_EM_T 1 r then 1 else 0).
Proof. intros x r w. now rewrite mix_den2, !is_at_upd. Qed.

(** the first of three samples does not have the distribution of the expression *)
Theorem C41_marginal_refuted : exists s f, wf_spe elaw s /\ settled s /\ inverted (D:=DQ) elaw ppfQ s /\ fair_fun s f /\
  expectQ (sample ppfQ s 3) (together [f; fun _ => 1; fun _ => 1] w0) = 19/64 /\ den elaw s f w0 = 1/4.
Proof.
  exists (zero_or_one "X"), (is_at "X" 0). refine (conj (mix_wf _) (conj (mix_settled _) (conj (mix_inverted _) (conj (mix_fair _ _) (conj _ _))))).
  - rewrite three. cbn [together pairs map]. destruct (at_vals "X" w0) as (-> & -> & _). lra.
  - rewrite mix_den. destruct (Req_EM_T 0 0), (Req_EM_T 1 0); lra.
Qed.
(** samples are not independent: 0, 1, 0 never comes out *)
Theorem C41_independent_refuted : exists s f g, wf_spe elaw s /\ settled s /\ inverted (D:=DQ) elaw ppfQ s /\ fair_fun s f /\ fair_fun s g /\
  expectQ (sample ppfQ s 3) (together [f; g; f] w0) = 0 /\ den elaw s f w0 * den elaw s g w0 * den elaw s f w0 = 3/64.
Proof.
  exists (zero_or_one "X"), (is_at "X" 0), (is_at "X" 1). refine (conj (mix_wf _) (conj (mix_settled _) (conj (mix_inverted _) (conj (mix_fair _ _) (conj (mix_fair _ _) (conj _ _)))))).
  - rewrite three. cbn [together pairs map]. destruct (at_vals "X" w0) as (-> & -> & -> & ->). lra.
  - rewrite !mix_den. destruct (Req_EM_T 0 0), (Req_EM_T 1 0), (Req_EM_T 0 1), (Req_EM_T 1 1); lra.
Qed.
(** averages over the samples of a product of two mixtures are biased *)
Definition two_mix : spQ := ProductSPE [zero_or_one "X"; zero_or_one "Y"].
Definition both0 (w : asg) : R := is_at "X" 0 w * is_at "Y" 0 w.
Lemma two_wf : wf_spe elaw two_mix.
Proof. apply prod_wf; try apply mix_wf. intros z [<-|[]] [K|[]]. discriminate. Qed.
Lemma both_fair : fair_fun two_mix both0.
Proof.
  apply (fair_mult _ (is_at "X" 0) (is_at "Y" 0)); (apply (fair_var _ "X" (ind (fun v => v = FNum 0))) || apply (fair_var _ "Y" (ind (fun v => v = FNum 0)))); cbn [fair All two_mix zero_or_one fst]; repeat split; apply bnd_ind.
Qed.
Lemma both_vals : forall w, both0 (onto (at0 "X" ++ at0 "Y")%list w) = 1 /\ both0 (onto (at0 "X" ++ at1 "Y")%list w) = 0 /\ both0 (onto (at1 "X" ++ at0 "Y")%list w) = 0 /\ both0 (onto (at1 "X" ++ at1 "Y")%list w) = 0.
Proof.
  intros w. assert (A : forall a b : Q, both0 (onto ([("X", SNum (Q2R a))] ++ [("Y", SNum (Q2R b))])%list w) = (if Req_EM_T (Q2R a) 0 then 1 else 0) * (if Req_EM_T (Q2R b) 0 then 1 else 0)).
  { intros a b. unfold both0, is_at, onto. cbn [app sget String.eqb Ascii.eqb Bool.eqb fval_of value_or]. f_equal; (destruct (Req_EM_T _ 0) as [K|K]; [rewrite K; now apply ind_true|apply ind_false; congruence]). }
  unfold at0, at1. rewrite !A. destruct Q01 as (-> & ->). destruct (Req_EM_T 0 0), (Req_EM_T 1 0); lra.
Qed.
Theorem C41_mean_refuted : exists s f, wf_spe elaw s /\ settled s /\ inverted (D:=DQ) elaw ppfQ s /\ fair_fun s f /\
  expectQ (sample ppfQ s 3) (total f 3 w0) = 411/2048 /\ 3 * den elaw s f w0 = 384/2048.
Proof.
  exists two_mix, both0. refine (conj two_wf (conj (conj (mix_settled _) (conj (mix_settled _) Logic.I)) (conj (conj (mix_inverted _) (conj (mix_inverted _) Logic.I)) (conj both_fair (conj _ _))))).
  - transitivity (expectQ (sample ppfQ (zero_or_one "X") 3) (fun a => match a with Ok a => expectQ (sample ppfQ (zero_or_one "Y") 3) (fun b => match b with Ok b => total both0 3 w0 (Ok (zip2 a b)) | Raise e => total both0 3 w0 (Raise e) end) | Raise e => total both0 3 w0 (Raise e) end)).
    + transitivity (expectQ (gbind (gbind (sample (D:=DQ) ppfQ (zero_or_one "X") 3) (fun a => gbind (gbind (sample (D:=DQ) ppfQ (zero_or_one "Y") 3) (fun b => gbind (Ret []) (fun bs => Ret (b :: bs)))) (fun bs => Ret (a :: bs)))) (fun ls => Ret (merge_samples ls))) (total both0 3 w0)); [reflexivity|].
      rewrite !expect_bind. apply expect_ext. intros [a|e]; [|reflexivity]. cbn [expect]. rewrite !expect_bind. apply expect_ext. intros [b|e]; [|reflexivity]. reflexivity.
    + rewrite three. rewrite !three. cbn [zip2 total upto]. destruct (both_vals w0) as (-> & -> & -> & ->). lra.
  - change (den elaw two_mix both0 w0) with (den elaw (zero_or_one "X") (den elaw (zero_or_one "Y") both0) w0). rewrite mix_den2, !mix_den2.
    assert (A : forall a b, both0 (upd (upd w0 "X" (FNum a)) "Y" (FNum b)) = (if Req_EM_T a 0 then 1 else 0) * (if Req_EM_T b 0 then 1 else 0)) by (intros a b; unfold both0; rewrite is_at_upd; f_equal; exact (is_at_upd "X" 0 a w0)).
    rewrite !A. destruct (Req_EM_T 0 0), (Req_EM_T 1 0); lra.
Qed.

(** asked for no variable of a product, sample_subset returns no samples at all; so does sample_func
    with a function without arguments *)
Theorem C41_subset_count_refuted : exists s, wf_spe elaw s /\ settled s /\ sourced (D:=DQ) drawnQ elaw ppfQ s /\ forall isset, outcome (D:=DQ) drawnQ unit_open (sample_subset ppfQ s isset [] 3) (Ok []).
Proof.
  exists p3. refine (conj p3_wf (conj (conj ax_settled (conj Logic.I Logic.I)) (conj (conj Logic.I (conj Logic.I Logic.I)) _))). intros b. apply (out_ret drawnQ unit_open []).
Qed.
Theorem C41_func_count_refuted : exists s (f : list sv -> nat), wf_spe elaw s /\ settled s /\ sourced (D:=DQ) drawnQ elaw ppfQ s /\ outcome (D:=DQ) drawnQ unit_open (sample_func ppfQ s [] f 3) (Ok []).
Proof.
  exists p3, (fun _ => 7%nat). refine (conj p3_wf (conj (conj ax_settled (conj Logic.I Logic.I)) (conj (conj Logic.I (conj Logic.I Logic.I)) _))). apply (out_ret drawnQ unit_open []).
Qed.
(** a derived variable that is a logarithm has a set for a value *)
Definition logenv : tenv (N:=QS) := [("X", X); ("Z", TLog X 2%Q)].
Definition lx : spQ := AtomicLeaf (N:=QS) "X" 8%Q logenv.
Theorem C41_log_refuted : exists s m, wf_spe (D:=DQ) elaw s /\ vars s "Z" /\ outcome (D:=DQ) drawnQ unit_open (sample ppfQ s 1) (Ok [m]) /\ exists r, sget m "Z" = Some (SSet r).
Proof.
  assert (Lk : forall y t, lookup y logenv = Some t -> (y = "X" /\ t = X) \/ (y = "Z" /\ t = TLog X 2%Q)).
  { intros y t H. unfold logenv, lookup in H. destruct (String.eqb y "X") eqn:E1; [apply String.eqb_eq in E1; injection H as <-; auto|]. destruct (String.eqb y "Z") eqn:E2; [apply String.eqb_eq in E2; injection H as <-; auto|discriminate]. }
  assert (E8 : Q2R 8 = 8) by (unfold Q2R; cbn; lra).
  set (r := if Rlt_dec 0 (Q2R 8) then Some (ln (Q2R 8) / ln (Q2R 2)) else None).
  exists lx, [("X", SNum (Q2R 8)); ("Z", SSet r)]. split; [|split; [now right; left|split; [|now exists r]]].
  - split; [split|].
    + apply (built_ext "X" [("X", TId "X")] "Z" (TLog X 2%Q)); [constructor|intros [H|[]]; discriminate|]. intros s [<-|[]]. now left.
    + intros y t H. destruct (Lk y t H) as [(-> & ->)|(-> & ->)]; [split; exact Logic.I|]. split; [|exact Logic.I]. refine (conj Logic.I (conj Logic.I _)). cbn. unfold Q2R; cbn. lra.
    + intros w. cbn [den lx]. apply ind_false. intros K. apply K. clear K.
      split; intros y t H; destruct (Lk y t H) as [(-> & ->)|(-> & ->)]; try exact Logic.I; try reflexivity.
      * change (num_op (f_log (Q2R 2)) (Some (FNum (Q2R 8))) = Some (value_or (num_op (f_log (Q2R 2)) (Some (FNum (Q2R 8)))))). rewrite E8. cbn [num_op]. unfold f_log. destruct (Rlt_dec 0 8); [reflexivity|lra].
      * split; [exact Logic.I|]. intros _ K. assert (K' : Some (FNum (Q2R 8)) = Some (FNum 0)) by exact K. injection K' as K'. lra.
  - assert (E : evaluate (N:=QS) (TLog X 2%Q) [("X", SNum (Q2R 8)); ("X", SNum (Q2R 8))] = Ok (SSet r)).
    { change ((do x <- in_domain nonnegative (SNum (Q2R 8)); Ok (SSet (if Rlt_dec 0 x then Some (ln x / ln (Q2R 2)) else None))) = Ok (SSet r)). unfold in_domain, nonnegative. destruct (Rlt_dec (Q2R 8) 0); [lra|reflexivity]. }
    assert (F : sample (D:=DQ) ppfQ lx 1 = Ret [[("X", SNum (Q2R 8)); ("Z", SSet r)]]).
    { transitivity (lift (D:=DQ) (do b <- (do r <- (do v <- evaluate (N:=QS) (TLog X 2%Q) [("X", SNum (Q2R 8)); ("X", SNum (Q2R 8))]; Ok [("Z", v)]); Ok (("X", SNum (Q2R 8)) :: r)); Ok [b])); [reflexivity|now rewrite E]. }
    rewrite F. constructor.
Qed.
(** a derived variable that is a piecewise function makes sampling fail *)
Definition pieceenv : tenv (N:=QS) := [("X", X); ("Z", TPiece [(X, EBasic KInt X (iv (qn 0) PInf true true))])].
Definition px : spQ := AtomicLeaf (N:=QS) "X" 8%Q pieceenv.
Theorem C41_piecewise_refuted : exists s n, wf_spe (D:=DQ) elaw s /\ forall r, outcome (D:=DQ) drawnQ unit_open (sample ppfQ s n) r -> r = Raise NotImplementedError.
Proof.
  set (pc := TPiece [(X, EBasic KInt X (iv (qn 0) PInf true true))]).
  assert (Lk : forall y t, lookup y pieceenv = Some t -> (y = "X" /\ t = X) \/ (y = "Z" /\ t = pc)).
  { intros y t H. unfold pieceenv, lookup in H. destruct (String.eqb y "X") eqn:E1; [apply String.eqb_eq in E1; injection H as <-; auto|]. destruct (String.eqb y "Z") eqn:E2; [apply String.eqb_eq in E2; injection H as <-; auto|discriminate]. }
  exists px, 1%nat. split.
  - split; [split|].
    + apply (built_ext "X" [("X", TId "X")] "Z" pc); [constructor|intros [H|[]]; discriminate|]. intros s [<-|[]]. now left.
    + intros y t H. destruct (Lk y t H) as [(-> & ->)|(-> & ->)]; [split; exact Logic.I|]. split; [|exact Logic.I]. split; [discriminate|]. split; [|exact Logic.I]. cbn [fst snd].
      split; [exact Logic.I|]. split; [exact Logic.I|]. split; [|split; [reflexivity|intros z Hz; exact Hz]].
      split; [exact Logic.I|]. split; [exact Logic.I|]. split; [|eexists; reflexivity]. split; [exact Logic.I|split; intros K; [discriminate|reflexivity]].
    + intros w. cbn [den px]. apply ind_false. intros K. apply K. clear K.
      split; intros y t H; destruct (Lk y t H) as [(-> & ->)|(-> & ->)]; try exact Logic.I; try reflexivity.
      * change (pick [(Some (FNum (Q2R 8)), truth (fm (N:=QS) (FNum (Q2R 8)) (iv (qn 0) PInf true true)))] = Some (value_or (pick [(Some (FNum (Q2R 8)), truth (fm (N:=QS) (FNum (Q2R 8)) (iv (qn 0) PInf true true)))]))).
        assert (M : fm (N:=QS) (FNum (Q2R 8)) (iv (qn 0) PInf true true)) by (apply (iv_fm (N:=QS)); cbn; unfold Q2R; cbn; split; [lra|exact Logic.I]).
        unfold truth. destruct (dec (fm (N:=QS) (FNum (Q2R 8)) (iv (qn 0) PInf true true))); [|contradiction]. cbn [pick]. destruct (dec (one = one)); [reflexivity|congruence].
      * split; [split; [split; [exact Logic.I|split; [exact Logic.I|discriminate]]|exact Logic.I]|]. constructor; constructor.
  - intros r H. assert (F : sample (D:=DQ) ppfQ px 1 = Fail NotImplementedError) by reflexivity. rewrite F in H. inversion H. reflexivity.
Qed.

(** uniform() may return 0, though with probability 0; then the sample is the right end of the interval, which an
    open interval does not contain *)
Definition uo : spQ := RealLeaf (D:=DQ) false "X" DUnif (mkIv (qn (1#4)) (qn (3#4)) true true) true exenv.
Lemma uo_mass : forall v, ind (in_iv (N:=QS) (mkIv (qn (1#4)) (qn (3#4)) true true)) v = ind (fun v => exists r, v = FNum r /\ 1/4 < r < 3/4) v.
Proof.
  intros v. apply ind_eq. destruct v as [r|s]; split.
  - intros K. apply in_iv_num in K. cbn in K. unfold Q2R in K; cbn in K. exists r. split; [auto|lra].
  - intros (r' & E & K). injection E as <-. apply in_iv_num. cbn. unfold Q2R; cbn. lra.
  - intros [].
  - intros (r' & E & _). discriminate.
Qed.
Lemma uo_wf : wf_leaf elaw uo.
Proof.
  apply real_wf; [now apply iv_wf|discriminate|exact unif_dist|].
  apply Rlt_le_trans with (elaw DUnif (ind (fun v => exists r, v = FNum r /\ 1/4 < r <= 1/2))); [rewrite cut_unif; lra|].
  apply (law_mono (d_law _ _ _ unif_dist)); try apply bnd_ind. intros v. rewrite uo_mass. destruct (dec (exists r, v = FNum r /\ 1/4 < r <= 1/2)) as [K|K].
  - rewrite !ind_true; [lra| |exact K]. destruct K as (r & -> & K). exists r. split; [auto|lra].
  - rewrite (ind_false _ (fun v => exists r, v = FNum r /\ 1/4 < r <= 1/2)) by auto. apply ind_01.
Qed.
Theorem C41_support_refuted : exists s m, wf_spe elaw s /\ settled s /\ sourced (D:=DQ) drawnQ elaw ppfQ s /\
  outcome (D:=DQ) drawnQ (fun u => 0 <= u < 1) (sample ppfQ s 1) (Ok [m]) /\ ~ possible s (onto m w0).
Proof.
  assert (C : leaf_Fu (D:=DQ) false DUnif (mkIv (qn (1#4)) (qn (3#4)) true true) = 3/4).
  { unfold leaf_Fu. rewrite (d_cdf _ _ _ unif_dist). change (unif (ind (at_most (Fin (Q2R (3#4))))) = 3/4). rewrite unif_cdf. cbn. unfold Q2R; cbn. rewrite Rmax_right, Rmin_right; lra. }
  set (m := [("X", SNum (3/4)); ("Z", SNum (Rpoly (N:=QS) [1;2]%Q (3/4)))]).
  exists uo, m. refine (conj uo_wf (conj (ex_settled _ _ _ _) (conj ppfQ_ok (conj _ _)))).
  - apply (out_unif drawnQ (fun u => 0 <= u < 1) 1 _ [0]); [reflexivity|constructor; [lra|constructor]|].
    set (v := 0 * leaf_Fl (D:=DQ) false DUnif (mkIv (qn (1#4)) (qn (3#4)) true true) + (1 - 0) * leaf_Fu (D:=DQ) false DUnif (mkIv (qn (1#4)) (qn (3#4)) true true)).
    assert (Ev : v = 3/4) by (unfold v; rewrite C; lra).
    assert (F : outcome (D:=DQ) drawnQ (fun u => 0 <= u < 1) (Ret [[("X", SNum v); ("Z", SNum (Rpoly (N:=QS) [1;2]%Q v))]]) (Ok [m])) by (rewrite Ev; constructor).
    exact F.
  - intros (u & K & H). specialize (H "X" (or_introl eq_refl)). change (FNum (3/4) = u) in H. subst u. apply in_iv_num in K. cbn in K. unfold Q2R in K; cbn in K. lra.
Qed.

Definition all_sample_properties :=
  (@C41_count, @C41_support, @C41_no_failure, @C41_subset_count, @C41_subset_support, @C41_subset_no_failure, @C41_func_count, @C41_func_support, @C41_func_no_failure,
   @C41_possible, @C41_subset_possible, @C41_func_possible, @C41_one, @C41_independent_partial, @C41_mean_partial,
   C41_outcomes_case, C41_subset_case, C41_func_case, C41_one_case, C41_mean_case, C41_independent_case,
   C41_marginal_refuted, C41_independent_refuted, C41_mean_refuted, C41_subset_count_refuted, C41_func_count_refuted, C41_log_refuted, C41_piecewise_refuted, C41_support_refuted).
Print Assumptions all_sample_properties.
