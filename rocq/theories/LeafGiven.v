(** Conditioning a leaf gives the conditional distribution. *)
From Coq Require Import List Bool String Reals Lra Lia ZArith QArith Qreals FunctionalExtensionality Permutation.
From Verif Require Import Base Num Sets SetSpec SetIv SetProofs SetOr SetOps SetAlg SetBuilt
  Poly Trans TransSpec TransFacts PolyProofs InvProofs InvMain EvProofs ArithProofs
  Dnf DnfSpec DnfProofs DnfUnion Logs Spe SpeSpec SpeFacts SpeRect LeafProofs LeafEvents LeafCond SpeCons.
Import ListNotations.
Local Open Scope R_scope.

Section Flatten.
  Context {N : numsys} {S : logsys} {D : distsys N S} (dlaw : dist D -> (fval -> R) -> R) (d : dist D).
  Lemma flatten_values_ok : forall disc (supp : interval N) r l, (disc = true -> ele (Fin 0) (eR (iv_a supp)) \/ dlaw d (ind above_zero) = 1) ->
    wf r -> pieces dlaw disc d r -> (forall v, mem v r -> mem v (PB (BInt supp))) -> flatten_values disc r = Ok l ->
    Forall (flat_ok dlaw d disc supp) l /\ forall v, (disc = true -> is_integer v) -> sumR (map (fun i => ind (in_iv i) v) l) = ind (fun v => fm v r) v.
  Proof.
    intros disc supp [|b|u] l P0 Wr Ps Sb H; cbn [flatten_values] in H; [discriminate| |].
    - apply (flatten_basic_ok dlaw d disc supp b l); auto.
    - inv_bind H. injection H as <-. apply mapM_Forall2 in E. destruct Wr as (_ & _ & _ & _ & Dj). simpl in Ps. rewrite Forall_forall in Ps.
      assert (Hb : forall b is, In b u -> flatten_basic disc b = Ok is -> Forall (flat_ok dlaw d disc supp) is /\ forall v, (disc = true -> is_integer v) -> sumR (map (fun i => ind (in_iv i) v) is) = ind (fun v => fm v (PB b)) v).
      { intros b is Hb Hi. apply (flatten_basic_ok dlaw d disc supp b is); auto. intros v Hv. apply (Sb v). simpl. eauto. }
      split.
      + apply Forall_forall. intros i Hi. apply in_concat in Hi. destruct Hi as (is & His & Hi). destruct (Forall2_in_r _ _ _ _ _ _ E His) as (b & Hbu & Eb).
        destruct (Hb b is Hbu Eb) as (A & _). rewrite Forall_forall in A. auto.
      + intros v Iv. rewrite union_ind by auto. rewrite sumR_concat_map. apply Forall2_sumR. clear -E Hb Iv. induction E as [|b is u ls Eb F IH]; constructor; [|apply IH; intros; apply Hb; auto; now right].
        apply Hb; auto. now left.
  Qed.
End Flatten.

Lemma Forall2_len : forall A B (P : A -> B -> Prop) l m, Forall2 P l m -> List.length l = List.length m.
Proof. induction 1; simpl; auto. Qed.
Lemma sumR_filter : forall A (f : A -> R) (g : A -> bool) l, (forall a, In a l -> g a = false -> f a = 0) -> sumR (map f (filter g l)) = sumR (map f l).
Proof.
  induction l as [|a l IH]; intros H; simpl; auto. destruct (g a) eqn:E; simpl; rewrite IH by (intros; apply H; simpl; auto); auto. rewrite (H a) by (simpl; auto). ring.
Qed.
Lemma sumR_scale_l : forall A (f : A -> R) c l, sumR (map (fun a => c * f a) l) = c * sumR (map f l).
Proof. intros. rewrite (sumR_ext _ _ (fun a => f a * c)) by (intros; ring). rewrite sumR_scale. ring. Qed.

Section Real.
  Context {N : numsys} {S : logsys} {D : distsys N S}.
  Context (dlaw : dist D -> (fval -> R) -> R).
  Context (disc : bool) (d : dist D) (supp : interval N) (cond : bool).
  Context (W1 : wf_iv supp) (W2 : disc = true -> disc_supp dlaw d supp) (W3 : dist_ok dlaw disc d)
    (W4 : if cond then 0 < dlaw d (ind (in_iv supp)) else dlaw d (ind (in_iv supp)) = 1).
  Notation B := (dlaw d).
  Notation I := (real_law dlaw d supp cond).
  Notation LB := (d_law _ _ _ W3).
  Notation LI := (real_I_law dlaw disc d supp cond W3 W4).
  Notation den := (den dlaw).
  Notation wf_spe := (wf_spe dlaw).
  Ltac case_bool b E := destruct (Bool.bool_dec b true) as [E|E]; [|apply Bool.not_true_is_false in E].

  Lemma null_integer : B (ind (fun v => ~ (disc = true -> is_integer v))) = 0.
  Proof.
    case_bool disc Ed.
    - rewrite (ind_iff _ _ (fun v => ~ is_integer v)) by (intro; tauto). apply (law_full LB), (d_int _ _ _ W3); auto.
    - rewrite (law_ext (I:=B) _ (fun _ => 0)); [apply (law_const LB)|]. intro v. apply ind_false. rewrite Ed. intro K. apply K. discriminate.
  Qed.
  (** restricting to an interval inside the support *)
  Lemma restrict_law : forall (i : interval N) g, (forall v, (disc = true -> is_integer v) -> in_iv i v -> in_iv supp v) -> bnd g -> 0 < I (ind (in_iv i)) ->
    0 < B (ind (in_iv i)) /\ real_law dlaw d i true g = I (fun v => g v * ind (in_iv i) v) / I (ind (in_iv i)).
  Proof.
    intros i g Sub Bg Pos.
    assert (E : forall h, bnd h -> B (fun v => h v * ind (in_iv i) v) = I (fun v => h v * ind (in_iv i) v) * (if cond then B (ind (in_iv supp)) else 1)).
    { intros h Bh. unfold real_law. pose proof W4 as W4'. destruct cond; [|ring]. unfold Rdiv. rewrite Rmult_assoc, Rinv_l, Rmult_1_r by lra.
      apply (law_as LB _ _ _ null_integer); auto with bnd. intros v Hv. assert (Iv : disc = true -> is_integer v) by tauto. specialize (Sub v Iv). unfold ind. destruct (dec (in_iv i v)), (dec (in_iv supp v)); try ring. tauto. }
    assert (E1 : B (ind (in_iv i)) = I (ind (in_iv i)) * (if cond then B (ind (in_iv supp)) else 1)).
    { pose proof (E (fun _ => 1) (bnd_const _ 1)) as K. rewrite (law_ext (I:=B) _ (ind (in_iv i))) in K by (intro; ring). rewrite (law_ext (I:=I) _ (ind (in_iv i))) in K by (intro; ring). exact K. }
    assert (Zp : 0 < (if cond then B (ind (in_iv supp)) else 1)) by (destruct cond; lra). split.
    - rewrite E1. now apply Rmult_lt_0_compat.
    - unfold real_law at 1. rewrite E by auto. rewrite E1. field. split; lra.
  Qed.
  Lemma mk_RealLeaf_ok : forall (i : interval N) x env t, mk_RealLeaf disc x d i true env = Ok t -> t = RealLeaf disc x d i true env /\ (disc = true -> integer_end (iv_a i) /\ integer_end (iv_b i)).
  Proof.
    intros i x env t H. unfold mk_RealLeaf in H. inv_bind H. inv_bind H. injection H as <-. split; auto. intros ->. inv_bind E. inv_bind E. inv_bind E. unfold passert in *.
    destruct r1; [|discriminate]. destruct r3; [|discriminate]. split.
    - destruct (iv_a i) as [|c|]; simpl in *; auto. apply is_int_int. congruence.
    - destruct (iv_b i) as [|c|]; simpl in *; auto. apply is_int_int. congruence.
  Qed.
  Lemma sum_or_one_ok : forall (cs : list (spe D)) (ws : list (lg S)) t, Forall wf_spe cs -> List.length cs = List.length ws -> sumR (map toP ws) = 1 -> sum_or_one cs ws = Ok t ->
    wf_spe t /\ (forall c x, In c cs -> (vars t x <-> vars c x)) /\ forall f a, den t f a = sumR (map (fun p => toP (snd p) * den (fst p) f a) (combine cs ws)).
  Proof.
    intros cs ws t Wc Len T H. unfold sum_or_one in H. destruct cs as [|c [|c' cs]].
    - destruct (mk_Sum_ok dlaw _ _ _ Wc H T) as (_ & A & _ & V & Dn). auto.
    - injection H as <-. inversion Wc; subst. split; auto. split; [intros c' x [<-|[]]; tauto|]. intros f a. destruct ws as [|w [|w' ws]]; try discriminate. simpl in T. rewrite Rplus_0_r in T. simpl. rewrite T. ring.
    - destruct (mk_Sum_ok dlaw _ _ _ Wc H T) as (_ & A & _ & V & Dn). auto.
  Qed.
  Lemma filter_In_pos : forall A (l : list (A * lg S)) a, In a (positive l) <-> In a l /\ 0 < toP (snd a).
  Proof. intros A l a. unfold positive. rewrite filter_In, negb_true_iff, lisninf_no. reflexivity. Qed.
  Theorem real_condition_ok : forall io v x env t, wf v -> wf_leaf dlaw (RealLeaf disc x d supp cond env) ->
    leaf_solved_condition io (RealLeaf disc x d supp cond env) v = Ok t ->
    wf_spe t /\ (forall y, vars t y <-> In y (map fst env)) /\ 0 < I (ind (fun u => fm u v)) /\
    forall f w, bnd f -> den t f w * I (ind (fun u => fm u v)) = I (fun u => f (place x env w u) * ind (fun u => fm u v) u).
  Proof.
    intros io v x env t Wv Wl H. cbn [leaf_solved_condition] in H. inv_bind H. inv_bind H. rename r into vals, r0 into wt.
    destruct (real_solved dlaw disc d supp cond W1 (disc_int _ _ _ _ _ _ _ W2) W3 W4 (disc_pos _ _ _ _ _ _ _ W2) io v vals x env Wv E) as (Wr & Ps & Rs & Fr & q & Eq & Hq).
    cbn [leaf_solved_logprob] in Eq. rewrite E in Eq. cbn [bind] in Eq. rewrite E0 in Eq. injection Eq as <-.
    destruct (lisninf wt) eqn:Ew; [discriminate|]. apply lisninf_no in Ew. rewrite Hq in Ew.
    assert (mul1 : forall P, I (fun u => 1 * ind P u) = I (ind P)) by (intro P; apply (law_ext (I:=I)); intro; ring).
    assert (As : forall g, bnd g -> I (fun u => g u * ind (fun u => fm u v) u) = I (fun u => g u * ind (fun u => fm u vals) u)).
    { intros g Bg. apply (law_as LI (fun v => ~ in_iv supp v) _ _ (I_supp dlaw disc d supp cond W3 W4)); auto with bnd. intros u Hu. f_equal. apply ind_eq. rewrite Fr. assert (in_iv supp u) by tauto. unfold in_iv in *. tauto. }
    assert (As1 : I (ind (fun u => fm u v)) = I (ind (fun u => fm u vals))).
    { pose proof (As (fun _ => 1) (bnd_const _ 1)) as K. cbv beta in K. rewrite !mul1 in K. exact K. }
    destruct (peqb vals (PB (BInt supp))) eqn:Ep.
    { injection H as <-. split; [exact Wl|]. split; [intro; reflexivity|]. split; auto. intros f w Bf. assert (One : forall g, bnd g -> I (fun u => g u * ind (fun u => fm u v) u) = I g).
      { intros g Bg. apply (law_as LI (fun v => ~ in_iv supp v) _ _ (I_supp dlaw disc d supp cond W3 W4)); auto with bnd. intros u Hu. assert (in_iv supp u) by tauto.
        rewrite (ind_true _ (fun u => fm u v)); [ring|]. apply (Fr u). apply (peqb_mem _ _ Ep). assumption. }
      rewrite (One (fun u => f (place x env w u))) by auto with bnd. pose proof (One (fun _ => 1) (bnd_const _ 1)) as K. cbv beta in K. rewrite mul1 in K. rewrite K, (law_const LI). cbn [SpeSpec.den]. apply Rmult_1_r. }
    inv_bind H. rename r into l.
    assert (Sub : forall u, mem u vals -> mem u (PB (BInt supp))) by (intros u Hu; now apply (pand_f io _ _ _ (W1 : wf (PB (BInt supp))) Wv E)).
    destruct (flatten_values_ok dlaw d disc supp vals l (fun Ed => proj2 (proj2 (W2 Ed))) Wr Ps Sub E1) as (Fl & Sl). rewrite Forall_forall in Fl.
    assert (Isub : forall i, In i l -> forall u, (disc = true -> is_integer u) -> in_iv i u -> in_iv supp u).
    { intros i Hi u Iu Hu. assert (K : 0 < ind (fun v => fm v vals) u).
      { rewrite <- (Sl u Iu). apply Rlt_le_trans with (ind (in_iv i) u); [rewrite ind_true by auto; lra|]. clear -Hi. induction l as [|j l IH]; [destruct Hi|]. simpl.
        assert (0 <= sumR (map (fun i => ind (in_iv i) u) l)) by (apply sumR_nonneg, Forall_map, Forall_forall; intros; apply ind_01). pose proof (ind_01 _ (in_iv j) u).
        unfold sumR in *. destruct Hi as [->|Hi]; [lra|]. apply IH in Hi. lra. }
      unfold ind in K. destruct (dec (fm u vals)) as [Kf|]; [|lra]. now apply Fr. }
    assert (Sum : forall g, bnd g -> I (fun u => g u * ind (fun u => fm u vals) u) = sumR (map (fun i => I (fun u => g u * ind (in_iv i) u)) l)).
    { intros g Bg. rewrite <- (law_sum LI) by (intros; auto with bnd). apply (law_as LI (fun v => ~ (disc = true -> is_integer v)) _ _ (I_null dlaw disc d supp cond W3 W4 _ null_integer)); auto with bnd.
      - apply bnd_sum. auto with bnd.
      - intros u Hu. rewrite <- (Sl u) by tauto. rewrite sumR_scale_l. reflexivity. }
    assert (Wi : forall i, In i l -> I (ind (in_iv i)) = 0 -> forall g, bnd g -> I (fun u => g u * ind (in_iv i) u) = 0).
    { intros i Hi Z g Bg. apply (law_null LI (in_iv i)); auto with bnd. intros u Hu. rewrite ind_false by auto. ring. }
    assert (H' : (do ps <- mapM (fun i => do p <- leaf_logprob_interval disc d supp cond i; Ok (i, p)) l;
          match positive ps with
          | [] => Raise ValueError
          | qs => do weights <- lognorm (map snd qs); do children <- mapM (fun q => mk_RealLeaf disc x d (fst q) true env) qs; sum_or_one children weights
          end) = Ok t) by (destruct l; [discriminate|exact H]). clear H. inv_bind H'. rename r into ps.
    apply mapM_Forall2 in E2.
    assert (Fp : Forall2 (fun i p => fst p = i /\ toP (snd p) = I (ind (in_iv i))) l ps).
    { clear -E2 Fl W1 W2 W3 W4. induction E2 as [|i p l ps Hp F IH]; constructor; [|apply IH; intros; apply Fl; now right]. inv_bind Hp. injection Hp as <-. cbn [fst snd]. split; auto.
      destruct (Fl i (or_introl eq_refl)) as (Wi & Ri). destruct (interval_ok dlaw disc d supp cond W1 (disc_int _ _ _ _ _ _ _ W2) W3 W4 i Wi) as (p & Ep & Hp); [intros Ed; destruct (Ri Ed) as [(? & ? & _)|?]; auto|]. congruence. }
    destruct (positive ps) as [|q0 qs0] eqn:Eqs; [discriminate|]. rewrite <- Eqs in H'. set (qs := positive ps) in *.
    assert (Qin : forall q, In q qs -> In (fst q) l /\ 0 < toP (snd q) /\ toP (snd q) = I (ind (in_iv (fst q)))).
    { intros q Hq'. unfold qs in Hq'. apply filter_In_pos in Hq'. destruct Hq' as (Hin & Hp). destruct (Forall2_in_r _ _ _ _ _ _ Fp Hin) as (i & Hi & Ei & Ti). rewrite Ei. auto. }
    assert (Pm : forall g, bnd g -> sumR (map (fun q => I (fun u => g u * ind (in_iv (fst q)) u)) qs) = I (fun u => g u * ind (fun u => fm u vals) u)).
    { intros g Bg. rewrite Sum by auto. transitivity (sumR (map (fun q : interval N * lg S => I (fun u => g u * ind (in_iv (fst q)) u)) ps)).
      - unfold qs, positive. apply sumR_filter. intros q Hq' Hz. apply negb_false_iff, lisninf_ok in Hz. destruct (Forall2_in_r _ _ _ _ _ _ Fp Hq') as (i & Hi & Ei & Ti). rewrite Ei. apply Wi; auto. congruence.
      - apply Forall2_sumR. clear -Fp. induction Fp as [|i p l ps (E & _) F IH]; constructor; auto. now rewrite E. }
    assert (Tot : sumR (map toP (map snd qs)) = I (ind (fun u => fm u v))).
    { rewrite As1. pose proof (Pm (fun _ => 1) (bnd_const _ 1)) as K. cbv beta in K. rewrite mul1 in K. rewrite <- K, map_map. apply sumR_ext. intros q Hq'.
      destruct (Qin q Hq') as (_ & _ & ->). apply (law_ext (I:=I)). intro; ring. }
    cbv zeta in H'. inv_bind H'. rename r into ws. inv_bind H'. rename r into cs.
    assert (Ex : Exists (fun a => 0 < toP a) (map snd qs)).
    { apply Exists_exists. exists (snd q0). assert (In q0 qs) by (rewrite Eqs; now left). split; [now apply in_map|]. now apply Qin. }
    destruct (lognorm_ok _ _ E3 Ex) as (Nw & Tw). rewrite Tot in Nw.
    apply mapM_Forall2 in E4.
    assert (Cs : Forall2 (fun q c => c = RealLeaf disc x d (fst q) true env /\ wf_spe c) qs cs).
    { assert (K : Forall2 (fun q c => In q qs /\ mk_RealLeaf disc x d (fst q) true env = Ok c) qs cs) by (clear -E4; induction E4; constructor; [split; [now left|auto]|]; eapply Forall2_weaken; [|exact IHE4]; intros a b (? & ?); split; auto; now right).
      eapply Forall2_weaken; [|exact K]. intros q c (Hq' & Hc). cbv beta in Hc. apply mk_RealLeaf_ok in Hc. destruct Hc as (-> & Ie). split; auto.
      destruct (Qin q Hq') as (Hi & Hp & Tp). destruct (Fl _ Hi) as (Wfi & Ri). destruct Wl as (_ & _ & _ & _ & Eo & Ef). rewrite Tp in Hp.
      assert (Bp : 0 < B (ind (in_iv (fst q)))) by now apply (restrict_law (fst q) (fun _ => 1) (Isub _ Hi) (bnd_const _ 1)).
      cbn [SpeSpec.wf_spe SpeSpec.wf_leaf]. split; [auto|]. split; [|split; [auto|split; [auto|split; [auto|]]]].
      - intros Ed. destruct (Ie Ed). split; auto. split; auto. destruct (Ri Ed) as [(_ & _ & P0)|P0]; auto.
      - intros w. cbn [SpeSpec.den]. destruct (restrict_law (fst q) (fun v0 => ind (fun w0 => ~ env_fine env w0) (place x env w v0)) (Isub _ Hi)) as (_ & ->); [auto with bnd|auto|].
        specialize (Ef w). cbn [SpeSpec.den] in Ef. rewrite (law_null LI (fun v0 => ~ env_fine env (place x env w v0)) (fun u => ind (fun w0 => ~ env_fine env w0) (place x env w u) * ind (in_iv (fst q)) u)); [unfold Rdiv; ring|exact Ef|auto with bnd|].
        intros u Hu. rewrite ind_false by auto. ring. }
    assert (Len : List.length cs = List.length ws). { rewrite <- (Forall2_len _ _ _ _ _ Cs). rewrite <- (Forall2_len _ _ _ _ _ Nw). now rewrite map_length. }
    assert (Wcs : Forall wf_spe cs) by (clear -Cs; induction Cs as [|? ? ? ? (_ & ?)]; constructor; auto).
    destruct (sum_or_one_ok cs ws t Wcs Len Tw H') as (Wt & Vt & Dt). split; auto. split.
    { intro y. destruct cs as [|c cs']; [inversion Cs as [K|]; rewrite Eqs in K; discriminate|]. rewrite (Vt c y (or_introl eq_refl)). inversion Cs as [|? ? ? ? (-> & _)]; subst. reflexivity. }
    split; auto. intros f w Bf. rewrite (As (fun u => f (place x env w u))) by auto with bnd. rewrite Dt. rewrite <- (Pm (fun u => f (place x env w u))) by auto with bnd. rewrite <- sumR_scale.
    clear -Cs Nw Qin Ew Bf Isub W1 W2 W3 W4.
    assert (Qin' : forall q, In q qs -> 0 < I (ind (in_iv (fst q))) /\ toP (snd q) = I (ind (in_iv (fst q))) /\ In (fst q) l) by (intros q Hq; destruct (Qin q Hq) as (? & ? & T); rewrite <- T; auto). clear Qin.
    revert Cs ws Nw Qin'. generalize qs. intros m Cs. induction Cs as [|q c m cs (-> & _) F IH]; intros ws Nw Qin; [reflexivity|]. cbn [map] in Nw. inversion Nw as [|? w0 ? ws' Hw0 Nw']; subst.
    cbn [combine map sumR fold_right fst snd]. unfold sumR in IH. rewrite (IH ws' Nw') by (intros; apply Qin; now right). f_equal. destruct (Qin q (or_introl eq_refl)) as (Hp & Tp & Hi). rewrite Hw0, Tp.
    cbn [SpeSpec.den]. destruct (restrict_law (fst q) (fun v0 => f (place x env w v0)) (Isub _ Hi)) as (_ & ->); auto with bnd. field. split; lra.
  Qed.
End Real.

Section Given.
  Context {N : numsys} {S : logsys} {D : distsys N S} (io : iterorder N).
  Context (dlaw : dist D -> (fval -> R) -> R).
  Notation spe := (spe D).
  Notation wf_leaf := (wf_leaf dlaw).
  Notation wf_spe := (wf_spe dlaw).
  Notation leaf_law := (leaf_den_law dlaw).
  Notation den := (den dlaw).

  Lemma nominal_condition_ok : forall x ws (v : pset N) t, wf_leaf (NominalLeaf x ws) -> wf v -> leaf_solved_condition io (D:=D) (NominalLeaf x ws) v = Ok t ->
    wf_spe t /\ (forall y, vars t y <-> x = y) /\ 0 < nom_law ws (ind (fun u => fm u v)) /\
    forall f w, bnd f -> den t f w * nom_law ws (ind (fun u => fm u v)) = nom_law ws (fun u => f (upd w x u) * ind (fun u => fm u v) u).
  Proof.
    intros x ws v t W Wv H. pose proof W as (Nd & P & T). pose proof (nom_law_law ws P T) as L. cbn [leaf_solved_condition] in H. inv_bind H. inv_bind H.
    destruct (nominal_values io _ _ _ _ E Wv E0) as (Wr & In1 & Vv & Ns & Vb).
    destruct r0 as [|[vs b|vs|i]|u]; try discriminate. inv_bind H. rename r0 into p. destruct (Vb vs b eq_refl) as (Tb & Nv & Fm & Iv).
    assert (Fv : forall k, In k (map fst ws) -> (fm (FStr k) v <-> In k vs)) by (intros k Hk; rewrite <- Vv by auto; apply Fm).
    assert (Sum : nom_law ws (ind (fun u => fm u v)) = Q2R p).
    { rewrite (nom_prob_sum _ _ _ Nd Nv E1). unfold nom_law. apply sumR_ext. intros k Hk. f_equal. apply ind_eq. apply Fv. now apply in_map. }
    assert (Q0 : 0 <= Q2R p) by (rewrite <- Sum; apply (law_01 L)). destruct (Qeq_bool p 0) eqn:Ez; [discriminate|]. pose proof (Q2R_pos p Q0 Ez) as Pp. pose proof (Qlt_Rlt _ _ Pp) as Pr. rewrite Q2R_0 in Pr.
    rewrite Sum. destruct (Qeq_bool p 1) eqn:E1'.
    - injection H as <-. split; [exact W|]. split; [intro; reflexivity|]. split; auto. intros f w Bf. apply Qeq_bool_iff, Qeq_eqR in E1'. assert (One : Q2R 1 = 1) by (unfold Q2R; simpl; field). rewrite One in E1'. rewrite E1', Rmult_1_r. cbn [SpeSpec.den].
      symmetry. apply (law_as L (fun u => ~ fm u v)); auto with bnd.
      + apply (law_full L). rewrite Sum. exact E1'.
      + intros u Hu. rewrite ind_true by tauto. ring.
    - unfold mk_NominalLeaf in H. inv_bind H. inv_bind H. injection H as <-. unfold passert in E3. rewrite map_map in E3. cbn [snd] in E3.
      split; [|split; [intro; reflexivity|split; auto]].
      + cbn [SpeSpec.wf_spe SpeSpec.wf_leaf]. rewrite map_map. cbn [fst]. split; [exact Nd|]. split.
        * rewrite Forall_map. rewrite Forall_forall in *. intros k Hk. cbn [snd]. destruct (nom_contains _ _ _); [|apply Qle_refl]. apply Qle_shift_div_l; auto. rewrite Qmult_0_l. now apply P.
        * rewrite map_map. cbn [snd]. destruct (Qeq_bool (Qsum _) 1) eqn:Es; [|discriminate]. now apply Qeq_bool_iff.
      + intros f w Bf. cbn [SpeSpec.den]. unfold nom_law. rewrite map_map. cbn [fst snd]. rewrite <- sumR_scale. apply sumR_ext. intros k Hk.
        assert (Ck : nom_contains (fst k) vs b = true <-> fm (FStr (fst k)) v).
        { rewrite Fv by now apply in_map. rewrite (nom_contains_ok (N:=N)). cbn [bmem]. now rewrite Tb. }
        destruct (nom_contains (fst k) vs b) eqn:Ec.
        * rewrite (ind_true _ (fun u => fm u v)) by now apply Ck. unfold Qdiv. rewrite Q2R_mult, Q2R_inv by (intro K; rewrite K in Pp; discriminate). field. lra.
        * rewrite (ind_false _ (fun u => fm u v)) by (intro K; apply Ck in K; discriminate). rewrite Q2R_0. ring.
  Qed.
  Theorem solved_condition_ok : forall s (v : pset N) t, wf_leaf s -> wf v -> (atomic s -> real_set v) -> leaf_solved_condition io s v = Ok t ->
    wf_spe t /\ (forall y, vars t y <-> vars s y) /\ 0 < leaf_law s (ind (fun u => fm u v)) /\
    forall f w, bnd f -> den t f w * leaf_law s (ind (fun u => fm u v)) = leaf_law s (fun u => f (leaf_place s w u) * ind (fun u => fm u v) u).
  Proof.
    intros s v t W Wv Rv H. destruct s as [disc x d supp cond env|x a env|x ws|l|l]; try contradiction.
    - pose proof W as (W1 & W2 & W3 & W4 & _). exact (real_condition_ok dlaw disc d supp cond W1 W2 W3 W4 io v x env t Wv W H).
    - cbn [leaf_solved_condition] in H. inv_bind H. inv_bind H. injection H as <-. destruct r; [|discriminate]. pose proof (contains_ok io (VNum (Fin a)) v true Wv (Rv Logic.I) E) as C. cbn [rv eR] in C. fold (fm (FNum (toR a)) v) in C.
      assert (K : fm (FNum (toR a)) v) by now apply C. split; [exact W|]. split; [intro; reflexivity|]. cbn [leaf_den_law]. rewrite ind_true by auto. split; [lra|]. intros f w Bf. reflexivity.
    - exact (nominal_condition_ok x ws v t W Wv H).
  Qed.
End Given.

Section Events.
  Context {N : numsys} {S : logsys} {D : distsys N S} (io : iterorder N) (po : polyoracle N) (fuel : nat).
  Context (dlaw : dist D -> (fval -> R) -> R).
  Theorem leaf_condition_ok : forall (s : spe D) e t, wf_leaf dlaw s -> gev e -> surely dlaw s (regular true e) -> (atomic s -> num_event e) ->
    leaf_condition io po fuel s e = Ok t ->
    wf_spe dlaw t /\ (forall y, vars t y <-> vars s y) /\
    forall w, 0 < den dlaw s (ind (holds e)) w /\ forall f, bnd f -> den dlaw t f w * den dlaw s (ind (holds e)) w = den dlaw s (fun w => f w * ind (holds e) w) w.
  Proof.
    intros s e t W G Rg Na H. pose proof (leaf_law_law dlaw s W) as L. unfold leaf_condition in H. inv_bind H. inv_bind H.
    destruct (leaf_event_ok io po fuel dlaw s e r W G Rg Na E) as (Gr & On & Nr & _ & Z).
    destruct (solve_ok io po fuel _ _ _ true (proj1 Gr) On (proj2 Gr) E0) as (Wv & _).
    destruct (solved_condition_ok io dlaw s r0 t W Wv) as (Wt & Vt & Pt & Dt); auto.
    { intros At. eapply solve_real; eauto. }
    split; auto. split; auto. intros w. pose proof (leaf_as io po fuel dlaw s e r r0 w W Gr On E0 (Z w)) as Z'.
    assert (Eh : forall g, bnd g -> leaf_den_law dlaw s (fun u => g u * ind (fun u => fm u r0) u) = leaf_den_law dlaw s (fun u => g u * ind (holds e) (leaf_place s w u))).
    { intros g Bg. apply (law_as L _ _ _ Z'); auto with bnd. intros u Hu. f_equal. apply ind_eq. tauto. }
    assert (E1 : den dlaw s (ind (holds e)) w = leaf_den_law dlaw s (ind (fun u => fm u r0))).
    { rewrite den_leaf by (now apply (wf_leaf_leaf dlaw)). pose proof (Eh (fun _ => 1) (bnd_const _ 1)) as K. cbv beta in K. rewrite (law_ext (I:=leaf_den_law dlaw s) (fun u => 1 * ind (holds e) (leaf_place s w u)) (fun v => ind (holds e) (leaf_place s w v))) in K by (intro; ring).
      rewrite <- K. apply (law_ext (I:=leaf_den_law dlaw s)). intro; ring. }
    rewrite E1. split; auto. intros f Bf. rewrite Dt by auto. rewrite den_leaf by (now apply (wf_leaf_leaf dlaw)). apply Eh. auto with bnd.
  Qed.
End Events.
