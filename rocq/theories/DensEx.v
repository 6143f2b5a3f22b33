(** Cases and refutations for C36 and C37, and for the parts of C30 and C32 about densities. *)
From Coq Require Import List Bool String Reals Lra Lia ZArith QArith Qabs Qreals FunctionalExtensionality.
From Verif Require Import Base Num Sets SetSpec SetIv SetProofs SetOr SetOps SetAlg SetBuilt
  Poly Trans TransSpec TransFacts PolyProofs InvProofs InvMain EvProofs ArithProofs PolyEx
  Dnf DnfSpec DnfProofs DnfUnion Logs Spe SpeSpec SpeFacts SpeRect LeafProofs LeafEvents LeafCond SpeCons LeafGiven MemoProofs PropTrans NormSorts LogprobProofs LogprobTop SpeEq SimplifyProofs CondTypes CondProofs CondTop PropSpe Uniform Instances SpeEx
  SpeOps OpsProofs BuildProofs TransformProofs PropCons ConsEx Same ProgEx DensSpec DensProofs ConstrainProofs DensLimit DensPoint PropDens.
Import ListNotations.
Local Open Scope R_scope.
Local Open Scope string_scope.

(** ** The density functions of the example distributions *)
Definition edpdf (d : dist DQ) (r : R) : R :=
  match d with
  | DFin l => Rabs (elaw (DFin l) (ind (eq (FNum r))))
  | DUnif => ind (fun r => 0 <= r <= 1) r
  end.
Lemma edpdf_ok : pdf_ok (S:=LQ) (D:=DQ) edpdf.
Proof.
  split.
  - intros [l|] c.
    + change (@toP LQ (@Spe.logpdf QS LQ DQ (DFin l) (Fin c))) with (lq_P (Qred (mass (fun z => Qeq_bool (inject_Z z) c) l))). cbn [edpdf elaw]. rewrite <- (mass_sum (fun z => Qeq_bool (inject_Z z) c) (eq (FNum (Q2R c)))).
      * unfold lq_P. rewrite (Qeq_eqR (Qabs (Qred (mass (fun z => Qeq_bool (inject_Z z) c) l))) (Qabs (mass (fun z => Qeq_bool (inject_Z z) c) l))) by (now rewrite Qred_correct).
        generalize (mass (fun z => Qeq_bool (inject_Z z) c) l). intros q. apply Qabs_case; intros H; apply Qle_Rle in H; rewrite Q2R_0 in H; [rewrite Rabs_right; lra|rewrite Q2R_opp, Rabs_left1; lra].
      * intros z. rewrite Qeq_bool_iff. split.
        -- intros H. rewrite <- (Qeq_eqR _ _ H), Q2R_Z. reflexivity.
        -- intros H. injection H as H. apply eqR_Qeq. rewrite Q2R_Z. symmetry. exact H.
    + change (@toP LQ (@Spe.logpdf QS LQ DQ DUnif (Fin c))) with (lq_P (if Qle_bool 0 c && Qle_bool c 1 then 1%Q else 0%Q)). cbn [edpdf]. change (@toR QS c) with (Q2R c).
      assert (E1 : Q2R 1 = 1) by (unfold Q2R; cbn; lra).
      destruct (Qle_bool 0 c) eqn:E; [destruct (Qle_bool c 1) eqn:F|]; cbn [andb].
      * apply Qle_bool_R in E, F. rewrite Q2R_0 in E. rewrite ind_true by lra. exact (lzero_ok LQ).
      * rewrite ind_false; [exact (lninf_ok LQ)|]. intros (_ & K). rewrite <- E1 in K. apply Qle_bool_R in K. congruence.
      * rewrite ind_false; [exact (lninf_ok LQ)|]. intros (K & _). rewrite <- Q2R_0 in K. apply Qle_bool_R in K. congruence.
  - intros [l|] r; cbn [edpdf]; [apply Rabs_pos|apply ind_01].
Qed.
Lemma unif_close : forall r h, 0 < h -> unif (ind (close h (RNum (Fin r)))) = clamp (Fin (r + h)) - clamp (Fin (r - h)).
Proof.
  intros r h Hh. rewrite <- !unif_cdf. rewrite <- (Rplus_0_r (_ - _)). rewrite <- (unif_point (r - h)). rewrite <- (law_minus unif_law) by auto with bnd. rewrite <- (law_plus unif_law (fun a => ind (at_most (Fin (r + h))) a - ind (at_most (Fin (r - h))) a)) by auto with bnd. f_equal. extensionality v.
  destruct v as [q|t].
  - unfold ind. destruct (dec (close h (RNum (Fin r)) (FNum q))) as [A|A], (dec (at_most (Fin (r + h)) (FNum q))) as [B|B], (dec (at_most (Fin (r - h)) (FNum q))) as [C|C], (dec (FNum (r - h) = FNum q)) as [E|E]; try lra; exfalso;
      cbn [close] in A; rewrite (at_most_num (Fin (r + h)) q) in B; rewrite (at_most_num (Fin (r - h)) q) in C;
      (assert (A' : Rabs (q - r) <= h <-> r - h <= q <= r + h) by (unfold Rabs; destruct (Rcase_abs _); lra)); rewrite A' in A;
      try (injection E as E); try (assert (q <> r - h) by (intros K; apply E; now rewrite K)); lra.
  - rewrite !ind_false; [lra|discriminate|apply at_most_str|apply at_most_str|intros []].
Qed.
Lemma unif_smooth : forall r, r <> 0 -> r <> 1 -> smooth elaw edpdf DUnif r.
Proof.
  intros r N0 N1. unfold smooth. cbn [elaw edpdf].
  assert (E : soon (fun h => unif (ind (close h (RNum (Fin r)))) = 2 * h * ind (fun r => 0 <= r <= 1) r)).
  { assert (K : soon (fun h => h < Rmin (Rabs (0 - r)) (Rabs (1 - r)))) by (apply soon_lt, Rmin_pos; apply Rabs_pos_lt; lra). revert K. apply soon_impl. intros h Hh K. rewrite unif_close by auto.
    pose proof (Rmin_l (Rabs (0 - r)) (Rabs (1 - r))). pose proof (Rmin_r (Rabs (0 - r)) (Rabs (1 - r))). assert (K0 : h < Rabs (0 - r)) by lra. assert (K1 : h < Rabs (1 - r)) by lra.
    unfold ind. cbn [clamp]. unfold Rmax, Rmin. unfold Rabs in K0, K1. destruct (Rcase_abs (0 - r)), (Rcase_abs (1 - r)), (dec (0 <= r <= 1)); repeat (destruct (Rle_dec _ _)); lra. }
  split.
  - apply (lim0_soon _ (fun _ => ind (fun r => 0 <= r <= 1) r)); [|apply lim0_const]. revert E. apply soon_impl. intros h Hh E. rewrite E. field. lra.
  - intros Z. revert E. apply soon_impl. intros h Hh E. rewrite E, Z. ring.
Qed.

(** ** Expressions *)
(** a mixture of a continuous and a discrete X *)
Definition m1 : spQ := ProductSPE [lu "X"; y1].
Definition m2 : spQ := ProductSPE [ld "X"; y2].
Definition mx : spQ := SumSPE (S:=LQ) [(m1, 1#2); (m2, 1#2)]%Q.
(** a mixture of discrete ones *)
Definition mf : spQ := SumSPE (S:=LQ) [(ProductSPE [ld "X"; y1], 1#4); (m2, 3#4)]%Q.
Lemma lx_apart : forall (s : spQ) ws, (forall z, vars s z -> z = "X") -> apart s (NominalLeaf "Y" ws).
Proof. intros s ws H z Hz <-. discriminate (H "Y" Hz). Qed.
Lemma m1_wf : wf_spe elaw m1.
Proof. apply prod_wf; [exact (lu_wf "X")|apply y_wf; easy|]. apply lx_apart. cbn. intuition. Qed.
Lemma mq_wf : forall a b, (0 <= a)%Q -> (0 <= b)%Q -> (a + b == 1)%Q -> wf_spe elaw (ProductSPE [ld "X"; NominalLeaf "Y" [("a", a); ("b", b)]]).
Proof. intros a b H1 H2 H3. apply prod_wf; [exact (ld_wf "X")|now apply y_wf|]. apply lx_apart. cbn. intuition. Qed.
Lemma two_wf : forall (s t : spQ) (a b : Q), wf_spe elaw s -> wf_spe elaw t -> (forall x, vars s x <-> vars t x) -> Qle_bool 0 a = true -> Qle_bool 0 b = true -> Q2R a + Q2R b = 1 -> wf_spe elaw (SumSPE (S:=LQ) [(s, a); (t, b)]).
Proof.
  intros s t a b Ws Wt E Ha Hb T. split; [cbn [All fst]; auto|]. split.
  - cbn [map sumR fold_right snd]. rewrite !lqP' by auto. lra.
  - intros c d [<-|[<-|[]]] [<-|[<-|[]]] x; cbn [fst]; rewrite ?E; tauto.
Qed.
Lemma mx_wf : wf_spe elaw mx.
Proof. apply two_wf; [exact m1_wf|apply mq_wf; easy|cbn; tauto|reflexivity|reflexivity|unfold Q2R; cbn; lra]. Qed.
Lemma mf_wf : wf_spe elaw mf.
Proof. apply two_wf; [apply mq_wf; easy|apply mq_wf; easy|cbn; tauto|reflexivity|reflexivity|unfold Q2R; cbn; lra]. Qed.
Lemma two_heavy : forall (s t : spQ) (a b : Q), every heavy s -> every heavy t -> Qltb 0 a = true -> Qltb 0 b = true -> every (heavy (D:=DQ)) (SumSPE (S:=LQ) [(s, a); (t, b)]).
Proof.
  intros s t a b Hs Ht Ha Hb. split; [|cbn; auto]. assert (K : forall q, Qltb 0 q = true -> 0 < @toP LQ q).
  { intros q Hq. apply Q2R_lt in Hq. rewrite Q2R_0 in Hq. rewrite lqP'; auto. apply Qle_bool_R. rewrite Q2R_0. lra. }
  repeat constructor; cbn [snd]; auto.
Qed.
Lemma m_heavy : forall x y : spQ, is_leaf x = true -> is_leaf y = true -> every heavy (ProductSPE [x; y]).
Proof. intros x y Hx Hy. split; [exact Logic.I|]. cbn. destruct x, y; try discriminate; cbn; tauto. Qed.
Lemma mx_heavy : every heavy mx.
Proof. apply two_heavy; try reflexivity; now apply m_heavy. Qed.
Lemma mf_heavy : every heavy mf.
Proof. apply two_heavy; try reflexivity; now apply m_heavy. Qed.

Definition xy (q : Q) (y : string) : assignment (N:=QS) := [("X", VNum (qn q)); ("Y", VStr y)].
Definition xa (q : Q) : assignment (N:=QS) := [("X", VNum (qn q))].
Lemma xy_dict : forall q y, dictionary (xy q y).
Proof. intros q y. split; [repeat constructor; cbn; intuition discriminate|]. repeat constructor. Qed.
Lemma xa_dict : forall q, dictionary (xa q).
Proof. intros q. split; [repeat constructor; cbn; intuition discriminate|]. repeat constructor. Qed.
Notation lpdf s := (SpeOps.logpdf_mem (ids_of s) s).
Notation cons s := (SpeOps.constrain so_id (ids_of s) s).

(** ** C36 *)
(** at X = 2 only the discrete X counts: 1/2 * 1/4 * 1/2, of dimension 0; at X = 1/2 only the
    continuous one: 1/2 * 1 * 1/4, of dimension 1 *)
Example C36_rule_case : fresh (lpdf mx (xy 2 "a")) = Ok (0%nat, 1#16)%Q /\ density elaw edpdf mx (values_of (xy 2 "a")) = (0%nat, @toP LQ (1#16)%Q).
Proof. split; [reflexivity|]. now apply (C36_rule elaw edpdf edpdf_ok (ids_of mx) exnom exenvof mx (xy 2 "a") (0%nat, 1#16)%Q mx_wf (ids_distinct mx) (xy_dict _ _)). Qed.
Example C36_logpdf_case : fresh (SpeOps.logpdf (ids_of mx) mx (xy (1#2) "a")) = Ok (1#8)%Q /\ @toP LQ (1#8)%Q = snd (density elaw edpdf mx (values_of (xy (1#2) "a"))).
Proof. split; [reflexivity|]. now apply (C36_logpdf elaw edpdf edpdf_ok (ids_of mx) exnom exenvof mx (xy (1#2) "a") (1#8)%Q mx_wf (ids_distinct mx) (xy_dict _ _)). Qed.
(** 1/4 * (1/4 * 3/4) + 3/4 * (1/4 * 1/2) *)
Example C36_atoms_case : fresh (SpeOps.logpdf (ids_of mf) mf (xy 2 "b")) = Ok (9#64)%Q /\ @toP LQ (9#64)%Q = Pr elaw mf (agrees (values_of (xy 2 "b"))).
Proof.
  split; [reflexivity|]. apply (C36_atoms elaw edpdf edpdf_ok (ids_of mf) exnom exenvof mf (xy 2 "b") (9#64)%Q mf_wf (ids_distinct mf) (xy_dict _ _)); [|reflexivity]. cbn. tauto.
Qed.
Lemma mx_smooth : forall q y, Q2R q <> 0 -> Q2R q <> 1 -> every (smooth_at elaw edpdf (values_of (xy q y))) mx.
Proof.
  intros q y H0 H1. assert (L : smooth_at elaw edpdf (values_of (xy q y)) (lu "X")).
  { intros r Hr. split; [|discriminate]. cbn in Hr. destruct Hr as [K|[K|[]]]; [|discriminate]. injection K as <-. now apply unif_smooth. }
  split; [exact Logic.I|]. split; [|split; [|exact Logic.I]].
  - split; [exact Logic.I|]. split; [split; [exact L|exact Logic.I]|]. split; [split; exact Logic.I|exact Logic.I].
  - cbn. tauto.
Qed.
(** near (1/2, 'a') the probability is (1/8) (2h) *)
Example C36_limit_case : fresh (lpdf mx (xy (1#2) "a")) = Ok (1%nat, 1#8)%Q /\ density_limit elaw mx (values_of (xy (1#2) "a")) 1 (@toP LQ (1#8)%Q).
Proof.
  split; [reflexivity|]. apply (C36_limit elaw edpdf edpdf_ok (ids_of mx) exnom exenvof mx (xy (1#2) "a") (1%nat, 1#8)%Q mx_wf (ids_distinct mx) (xy_dict _ _) mx_heavy); [|reflexivity]. apply mx_smooth; unfold Q2R; cbn; lra.
Qed.
(** at the ends of the support it is not: the density of the uniform distribution at 0 is 1, but
    the probability of [-h,h] is h *)
Theorem C36_end_refuted : exists (s : spQ) a r, wf_spe elaw s /\ dictionary a /\ every heavy s /\ fresh (lpdf s a) = Ok r /\ ~ density_limit elaw s (values_of a) (fst r) (@toP LQ (snd r)).
Proof.
  exists (lu "X"), (xa 0), (1%nat, 1%Q). split; [exact (lu_wf "X")|]. split; [apply xa_dict|]. split; [cbn; tauto|]. split; [reflexivity|]. intros H.
  assert (K : lim0 (fun h => Pr elaw (lu "X") (near h (values_of (xa 0))) / (2 * h) ^ 1) (1/2)).
  { apply (lim0_soon _ (fun _ => 1 / 2)); [|apply lim0_const]. generalize (soon_lt 1 Rlt_0_1). apply soon_impl. intros h Hh Hs.
    assert (E : Pr elaw (lu "X") (near h (values_of (xa 0))) = unif (ind (close h (RNum (Fin 0))))).
    { unfold Pr. cbn [den lu leaf real_law elaw]. f_equal. extensionality v. apply ind_eq. unfold near. cbn [values_of xa map fst snd val_of]. split.
      - intros G. specialize (G _ (or_introl eq_refl)). cbn [fst snd] in G. unfold place in G. cbn in G. replace 0 with (Q2R 0) by apply Q2R_0. exact G.
      - intros G p [<-|[]]. cbn [fst snd]. unfold place. cbn. replace 0 with (Q2R 0) in G by apply Q2R_0. exact G. }
    rewrite E, unif_close by auto. cbn [clamp]. rewrite Rmax_right, Rmin_right, Rmax_left, Rmin_right by lra. field. lra. }
  pose proof (lim0_unique _ _ _ H K) as E. cbn [snd] in E. rewrite lqP' in E by reflexivity. unfold Q2R in E; cbn in E. lra.
Qed.
(** an atom has no density: AtomicLeaf has no logpdf, so logpdf fails for every expression with
    an assigned atom, though the probability of the assignment is positive *)
Theorem C36_atom_refuted : exists (s : spQ) a, wf_spe elaw s /\ dictionary a /\ asked s (values_of a) /\ every (atomic_at (values_of a)) s /\
  0 < Pr elaw s (agrees (values_of a)) /\ fresh (SpeOps.logpdf (ids_of s) s a) = Raise NotImplementedError.
Proof.
  exists ax, (xa 5). split; [exact ax_wf|]. split; [apply xa_dict|]. split; [eexists; reflexivity|]. split; [cbn; tauto|]. split; [|reflexivity].
  unfold Pr. cbn [den ax]. rewrite ind_true; [lra|]. intros p [<-|[]]. reflexivity.
Qed.
(** a nominal value of weight zero (which condition leaves behind) has no density: math.log(0)
    raises *)
Theorem C36_zero_weight_refuted : exists (s : spQ) a, wf_spe elaw s /\ dictionary a /\ asked s (values_of a) /\ fresh (SpeOps.logpdf (ids_of s) s a) = Raise ValueError.
Proof.
  exists (NominalLeaf "Y" [("a", 1); ("b", 0)]%Q), [("Y", VStr "b")]. split; [apply y_wf; easy|]. split; [split; [repeat constructor; cbn; intuition|repeat constructor]|]. split; [eexists; reflexivity|reflexivity].
Qed.

(** ** C37 *)
Definition mxa : spQ := ProductSPE [AtomicLeaf (N:=QS) "X" (1#2)%Q (Spe.base_env "X"); y1].
Definition mfa : spQ := SumSPE (S:=LQ) [(ProductSPE [AtomicLeaf (N:=QS) "X" 2%Q (Spe.base_env "X"); y1], 1#4); (ProductSPE [AtomicLeaf (N:=QS) "X" 2%Q (Spe.base_env "X"); y2], 3#4)]%Q.
Lemma mx_cons : fresh (cons mx (xa (1#2))) = Ok mxa.
Proof. reflexivity. Qed.
Lemma mx_consable : forall q, constrainable mx (xa q).
Proof. intros q. split; [exact mx_heavy|]. split; [apply xa_dict|]. intros x [<-|[]]. cbn. tauto. Qed.
Lemma mf_consable : forall q, constrainable mf (xa q).
Proof. intros q. split; [exact mf_heavy|]. split; [apply xa_dict|]. intros x [<-|[]]. cbn. tauto. Qed.
Example C37_values_case : fresh (cons mx (xa (1#2))) = Ok mxa /\ wf_spe elaw mxa /\ surely elaw mxa (agrees (values_of (xa (1#2)))) /\ 0 < snd (density elaw edpdf mx (values_of (xa (1#2)))) /\ (forall x, vars mxa x <-> vars mx x).
Proof.
  split; [exact mx_cons|]. split; [|split; [|split]].
  - exact (C37_wf so_id elaw edpdf edpdf_ok (ids_of mx) exnom exenvof mx _ mxa mx_wf (ids_distinct mx) (mx_consable _) mx_cons).
  - exact (C37_values so_id elaw edpdf edpdf_ok (ids_of mx) exnom exenvof mx _ mxa mx_wf (ids_distinct mx) (mx_consable _) mx_cons).
  - exact (C37_positive so_id elaw edpdf edpdf_ok (ids_of mx) exnom exenvof mx _ mxa mx_wf (ids_distinct mx) (mx_consable _) mx_cons).
  - apply (C32_constrain so_id elaw edpdf edpdf_ok (ids_of mx) exnom exenvof mx _ mxa mx_wf (ids_distinct mx) (mx_consable _) mx_cons). cbn. repeat split; auto; intuition.
Qed.
Example C37_given_case : exists t, fresh (cons mf (xa 2)) = Ok t /\ given elaw mf (agrees (values_of (xa 2))) t.
Proof.
  eexists. split; [reflexivity|]. apply (C37_given so_id elaw edpdf edpdf_ok (ids_of mf) exnom exenvof mf (xa 2) _ mf_wf (ids_distinct mf) (mf_consable _)); [| |reflexivity]; cbn; repeat split; auto; intuition.
Qed.
(** the probability of Y = 'a' given that X is within h of 1/2 tends to 1/4 *)
Example C37_limit_case : lim0 (fun h => den elaw mx (fun u => rect [("Y", ind (eq (FStr "a")))] u * ind (near h (values_of (xa (1#2)))) u) w0 / den elaw mx (ind (near h (values_of (xa (1#2))))) w0) (1/4).
Proof.
  replace (1/4) with (den elaw mxa (rect [("Y", ind (eq (FStr "a")))]) w0).
  - apply (C37_limit so_id elaw edpdf edpdf_ok (ids_of mx) exnom exenvof mx _ mxa _ w0 mx_wf (ids_distinct mx) (mx_consable _)); [| |exact mx_cons| |].
    + refine (every_impl _ _ _ _ (mx_smooth (1#2) "a" _ _)); [|unfold Q2R; cbn; lra|unfold Q2R; cbn; lra]. intros [[|] x d supp cond env|x c env|x ws|l|l]; cbn [smooth_at]; auto. intros H r [K|[]]. apply H. now left.
    + cbn. repeat split; auto; intuition.
    + repeat constructor. apply bnd_ind.
    + intros p [<-|[]] [K|[]]. discriminate.
  - cbn [den mxa den_prod y1]. unfold nom_law. cbn [map sumR fold_right fst snd]. unfold rect. cbn [map prodR fold_right fst snd]. unfold upd. cbn [String.eqb Ascii.eqb Bool.eqb].
    rewrite (ind_true _ (eq (FStr "a")) (FStr "a")) by auto. rewrite (ind_false _ (eq (FStr "a")) (FStr "b")) by discriminate. unfold Q2R; cbn. lra.
Qed.
(** a second assignment of the same variable fails: the first leaves an atom, which has no density *)
Theorem C37_again_refuted : exists (s t : spQ) a, wf_spe elaw s /\ constrainable s a /\ fresh (cons s a) = Ok t /\ constrainable t a /\ fresh (cons t a) = Raise NotImplementedError.
Proof.
  exists mx, mxa, (xa (1#2)). split; [exact mx_wf|]. split; [apply mx_consable|]. split; [exact mx_cons|]. split; [|reflexivity].
  split; [now apply m_heavy|]. split; [apply xa_dict|]. intros x [<-|[]]. cbn. tauto.
Qed.
(** the derived variables of assigned leaves are lost: here Z = 2*X + 1 *)
Theorem C37_derived_refuted : exists (s t : spQ) a, wf_spe elaw s /\ constrainable s a /\ fresh (cons s a) = Ok t /\ vars s "Z" /\ ~ vars t "Z".
Proof.
  exists ux, (AtomicLeaf (N:=QS) "X" (1#2)%Q (Spe.base_env "X")), (xa (1#2)). split; [exact ux_wf|]. split.
  - split; [cbn; tauto|]. split; [apply xa_dict|]. intros x [<-|[]]. now left.
  - split; [reflexivity|]. split; [right; now left|]. intros [K|[]]. discriminate.
Qed.
Theorem C32_derived_refuted : exists (s t : spQ) a, wf_spe elaw s /\ constrainable s a /\ fresh (cons s a) = Ok t /\ ~ (forall x, vars s x <-> vars t x).
Proof. destruct C37_derived_refuted as (s & t & a & H1 & H2 & H3 & H4 & H5). exists s, t, a. repeat split; auto; try apply H2. intros K. apply H5. now apply K. Qed.
(** a product ignores variables that it does not have (a leaf and logpdf refuse them), so the
    assigned value is not the value of the variable *)
Theorem C37_unknown_refuted : exists (s t : spQ) a, wf_spe elaw s /\ dictionary a /\ fresh (cons s a) = Ok t /\ (exists x, In x (map fst a) /\ ~ vars s x /\ ~ vars t x).
Proof.
  exists m1, m1, [("W", VNum (qn 1))]. split; [exact m1_wf|]. split; [split; [repeat constructor; cbn; intuition|repeat constructor]|]. split; [reflexivity|].
  exists "W". split; [now left|]. cbn. intuition discriminate.
Qed.

(** ** C30: a history with all four kinds of queries *)
Definition hist : list (query (N:=QS) (D:=DQ)) := [QLogprob mx yina; QLogpdf mx (xy 2 "a"); QConstrain mx (xa (1#2)); QCondition mx yina; QLogpdf mx (xa (1#2))].
Lemma mx_typed : typed (D:=DQ) exnom exenvof mx.
Proof.
  split.
  - repeat constructor; cbn [snd]; rewrite lqP' by reflexivity; unfold Q2R; cbn; lra.
  - cbn. intuition; subst; reflexivity.
Qed.
Lemma mx_cond : conditionable elaw exnom mx yina.
Proof.
  split; [exact gev_yina|]. split; [|split].
  - apply surely_all; [exact mx_wf|]. intros w. apply plain_regular; cbn; intuition discriminate.
  - apply Forall_cons; [exact sort_yina|apply Forall_nil].
  - intros x [<-|[]]. cbn. tauto.
Qed.
Lemma hist_fine : Forall (fine elaw exnom exenvof (within mx)) hist.
Proof.
  pose proof (within_self mx) as U. pose proof mx_wf as W. pose proof mx_typed as T. pose proof mx_cond as C.
  pose proof (typed_atoms exnom exenvof mx T) as A. pose proof (conditionable_askable elaw exnom mx yina C) as Q.
  apply Forall_cons; [exact (conj U (conj W (conj A Q)))|]. apply Forall_cons; [exact (conj U (conj W (xy_dict _ _)))|]. apply Forall_cons; [exact (conj U (conj W (mx_consable _)))|].
  apply Forall_cons; [exact (conj U (conj W (conj T C)))|]. apply Forall_cons; [exact (conj U (conj W (xa_dict _)))|apply Forall_nil].
Qed.
Notation asked_after q := (q (table ioQ so_id po 9 (ids_of mx) exhash hist)).
Example C30_all_case :
  fst (asked_after (SpeOps.logpdf (ids_of mx) mx (xy 2 "a"))) = Ok (1#16)%Q /\
  (forall t, fst (asked_after (SpeOps.constrain so_id (ids_of mx) mx (xa (1#2)))) = Ok t -> same_law elaw t mxa) /\
  (forall p, fst (asked_after (logprob ioQ po 9 (ids_of mx) mx yina)) = Ok p -> @toP LQ p = prob elaw mx yina).
Proof.
  pose proof (within_closed (ids_of mx) mx (ids_distinct mx)) as Uc. split; [reflexivity|]. split.
  - intros t Ht. exact (C30_all_constrain_fresh ioQ so_id po 9 elaw elaw_eq edpdf edpdf_ok (ids_of mx) exhash exnom exenvof (within mx) Uc hist mx (xa (1#2)) t mxa hist_fine (within_self mx) mx_wf (mx_consable _) Ht mx_cons).
  - intros p Hp. apply (C30_all_logprob ioQ so_id po 9 elaw elaw_eq edpdf edpdf_ok (ids_of mx) exhash exnom exenvof (within mx) Uc hist mx yina p hist_fine (within_self mx) mx_wf); auto.
    + exact (typed_atoms exnom exenvof mx mx_typed).
    + exact (conditionable_askable elaw exnom mx yina mx_cond).
Qed.

Definition all_dens_cases := (@C36_end_refuted, @C36_atom_refuted, @C36_zero_weight_refuted, @C37_again_refuted, @C37_derived_refuted, @C32_derived_refuted, @C37_unknown_refuted).
Print Assumptions all_dens_cases.
