(** Conditioning a leaf on a set of values of positive probability gives a result. *)
From Coq Require Import List Bool String Reals Lra Lia ZArith QArith Qreals FunctionalExtensionality Permutation.
From Verif Require Import Base Num Sets SetSpec SetIv SetProofs SetOr SetOps SetAlg SetBuilt
  Poly Trans TransSpec TransFacts PolyProofs InvProofs InvMain EvProofs ArithProofs
  Dnf DnfSpec DnfProofs DnfUnion Logs Spe SpeSpec SpeFacts SpeRect LeafProofs LeafEvents LeafCond SpeCons LeafGiven SpeOps OpsProofs MemoProofs LogprobProofs CondTypes TotalSpec TotalEnds.
Import ListNotations.
Local Open Scope R_scope.

Definition wholeR (r : R) : Prop := exists z, r = IZR z.

Section Flatten.
  Context {N : numsys} {S : logsys} {D : distsys N S}.
  Notation enum := (ext (num N)).
  Lemma range_total : forall r y tl, run r (y :: tl) -> Forall (fun x : enum => exists z, eR x = Fin (IZR z)) (y :: tl) -> exists i, Range (N:=N) y (last (y :: tl) y) = Ok i.
  Proof.
    intros r y tl H F. set (b := y :: tl) in *. assert (Hy : eR y = Fin r).
    { rewrite (run_nth r b y 0%nat H eq_refl). simpl. now rewrite Rplus_0_r. }
    assert (Hl : eR (last b y) = Fin (r + INR (List.length b - 1))) by (apply (run_nth r b); auto; apply last_nth_error; discriminate).
    rewrite Forall_forall in F. destruct (F y ltac:(now left)) as (n & Hn).
    assert (Hin : In (last b y) b) by (eapply nth_error_In, last_nth_error; discriminate). destruct (F _ Hin) as (m & Hm).
    set (z := last b y) in *. destruct y as [|a|]; simpl in Hy; try discriminate. destruct z as [|c|]; simpl in Hl; try discriminate. cbn [eR] in *.
    injection Hy as Ha. injection Hl as Hc. injection Hn as Hn. injection Hm as Hm.
    unfold Range. cbn [int_or_isinf_neg int_or_isinf_pos bind]. assert (is_int a = true) as -> by (apply is_int_int; eauto). assert (is_int c = true) as -> by (apply is_int_int; eauto). cbn [passert bind].
    unfold Interval_. assert (L : eltb (Fin a) (eadd_bool (Fin c) (eeqb (Fin a) (Fin c))) = true); [|rewrite L; cbn [passert bind]; eauto].
    apply eltb_elt. pose proof (pos_INR (List.length tl - 0)) as P. destruct (eeqb (Fin a) (Fin c)) eqn:E; cbn [eadd_bool eR].
    - unfold elt. simpl. rewrite nadd_ok, nint_ok. lra.
    - unfold elt. simpl. assert (toR a <> toR c); [|lra]. intros K. assert (K2 : eeqb (Fin a) (Fin c) = true) by (apply eeqb_eR; simpl; now rewrite K). rewrite K2 in E. discriminate E.
  Qed.
  Lemma flatten_basic_total : forall disc (b : bset N), real_b b -> (match b with BReal vs => disc = true /\ Forall finite vs | _ => True end) -> (disc = true -> ends wholeR wholeR (PB b)) ->
    exists l, flatten_basic disc b = Ok l /\ (disc = true -> Forall int_supp l).
  Proof.
    intros disc [vs f|vs|i] Rb P En; [contradiction| |].
    - destruct P as (-> & Fv). cbn [flatten_basic passert bind]. destruct (partition_runs vs Fv) as (A & B). specialize (En eq_refl). destruct En as (_ & En).
      destruct (mapM_ok _ _ (fun c : list enum => match c with [] => Raise ValueError | y :: _ => Range y (last c y) end) (fun _ i => int_supp i) (partition_finite_real_contiguous vs)) as (l & E & F).
      + intros b Hb. rewrite Forall_forall in A. destruct (A b Hb) as (Ne & r & Hr). destruct b as [|y tl]; [tauto|].
        destruct (range_total r y tl Hr) as (i & Ei).
        * apply Forall_forall. intros x Hx. assert (Hv : In x vs) by (apply (sort_In eleb); rewrite <- B; apply in_concat; eauto). rewrite Forall_forall in Fv. destruct (Fv x Hv) as (c & ->). simpl.
          destruct (En vs (Fin c) (toR c) ltac:(now left) Hv eq_refl) as [(z & Hz)|(z & Hz)]; exists z; simpl; now rewrite Hz.
        * exists i. split; auto. destruct (range_block r y tl i Hr Ei) as (_ & I1 & I2 & _). split; auto.
      + exists l. split; auto. intros _. clear -F. induction F; constructor; auto.
    - exists [i]. split; [reflexivity|]. intros Ed. constructor; [|constructor]. specialize (En Ed). destruct En as (En & _). specialize (En i ltac:(now left)). split; unfold integer_end.
      + destruct (iv_a i) as [|c|] eqn:E; auto. apply (En (toR c)). left. now rewrite E.
      + destruct (iv_b i) as [|c|] eqn:E; auto. apply (En (toR c)). right. now rewrite E.
  Qed.
  Lemma flatten_total : forall disc (v : pset N), v <> PEmpty -> real_set v -> (forall vs, In (BReal vs) (parts v) -> disc = true /\ Forall finite vs) -> (disc = true -> ends wholeR wholeR v) ->
    exists l, flatten_values disc v = Ok l /\ (disc = true -> Forall int_supp l).
  Proof.
    intros disc [|b|u] Ne Rv P En; [tauto| |]; cbn [flatten_values].
    - apply flatten_basic_total; auto. destruct b; auto. apply P. now left.
    - destruct (mapM_ok _ _ (flatten_basic disc) (fun _ l => disc = true -> Forall (int_supp (N:=N)) l) u) as (ls & E & F).
      + intros b Hb. simpl in Rv. rewrite Forall_forall in Rv. apply flatten_basic_total; auto.
        * destruct b; try exact Logic.I. now apply P.
        * intros Ed. specialize (En Ed). rewrite ends_parts in En. rewrite Forall_forall in En. now apply En.
      + rewrite E. cbn [bind]. eexists. split; [reflexivity|]. intros Ed. clear -F Ed. apply Forall_concat. induction F; constructor; auto.
  Qed.
End Flatten.

Section Real.
  Context {N : numsys} {S : logsys} {D : distsys N S}.
  Context (dlaw : dist D -> (fval -> R) -> R).
  Context (disc : bool) (d : dist D) (supp : interval N) (cond : bool).
  Context (W1 : wf_iv supp) (W2 : disc = true -> disc_supp dlaw d supp) (W3 : dist_ok dlaw disc d)
    (W4 : if cond then 0 < dlaw d (ind (in_iv supp)) else dlaw d (ind (in_iv supp)) = 1).
  Notation B := (dlaw d).
  Notation I := (real_law dlaw d supp cond).
  Notation LB := (d_law _ _ _ W3).
  Notation LI := (real_I_law dlaw disc d supp cond W3 W4).
  Notation wf_spe := (wf_spe dlaw).

  Lemma mk_RealLeaf_total : forall (i : interval N) x env, wf_iv i -> (disc = true -> int_supp i) -> 0 < B (ind (in_iv i)) -> mk_RealLeaf disc x d i true env = Ok (RealLeaf disc x d i true env).
  Proof.
    intros i x env Wi Ii Pi. unfold mk_RealLeaf.
    assert (E : (if disc then do b <- int_or_isinf_neg (iv_a i); do _ <- passert b; do c <- int_or_isinf_pos (iv_b i); passert c else Ok tt) = Ok tt).
    { pose proof Ii as Ii0. clear Ii. revert Ii0. destruct disc; auto. intros Ii. destruct (Ii eq_refl) as (Ia & Ib). destruct Wi as (Lt & _). destruct (iv_a i) as [|a|]; destruct (iv_b i) as [|b|]; cbn in *; try (unfold elt in Lt; cbn in Lt; contradiction);
        try (apply is_int_int in Ia; rewrite Ia; cbn); try (apply is_int_int in Ib; rewrite Ib; cbn); reflexivity. }
    rewrite E. cbn [bind]. destruct (logZ_ok dlaw disc d i Wi Ii W3) as (z & Ez & _). rewrite Ez. reflexivity.
  Qed.
  Theorem real_condition_total : forall io v vals x env, wf v -> wf_leaf dlaw (RealLeaf disc x d supp cond env) -> pand io (PB (BInt supp)) v = Ok vals ->
    (disc = true -> ends wholeR wholeR vals) -> (disc = false -> not_union vals \/ forall vs, ~ In (BReal vs) (parts vals)) ->
    0 < I (ind (fun u => fm u v)) -> exists t, leaf_solved_condition io (RealLeaf disc x d supp cond env) v = Ok t.
  Proof.
    intros io v vals x env Wv Wl E En Np Pos.
    destruct (real_solved dlaw disc d supp cond W1 (disc_int _ _ _ _ _ _ _ W2) W3 W4 (disc_pos _ _ _ _ _ _ _ W2) io v vals x env Wv E) as (Wr & Ps & Rs & Fr & wt & Eq & Hq).
    cbn [leaf_solved_logprob] in Eq. rewrite E in Eq. cbn [bind] in Eq.
    cbn [leaf_solved_condition]. rewrite E. cbn [bind]. rewrite Eq. cbn [bind].
    assert (Ew : lisninf wt = false) by (apply lisninf_no; now rewrite Hq). rewrite Ew.
    destruct (peqb vals (PB (BInt supp))); [eauto|].
    assert (Ne : vals <> PEmpty). { intros ->. cbn in Eq. injection Eq as <-. assert (K : lisninf (l0:=S) lninf = true) by (apply lisninf_ok, lninf_ok). congruence. }
    assert (Fin1 : forall vs, In (BReal vs) (parts vals) -> disc = true /\ Forall finite vs).
    { intros vs Hvs. split.
      - destruct disc eqn:Ed; auto. exfalso. destruct (Np eq_refl) as [Nu|Nb]; [|exact (Nb vs Hvs)]. destruct vals as [|b|u]; try contradiction. destruct Hvs as [->|[]]. cbn in Eq. injection Eq as <-. assert (K : lisninf (l0:=S) lninf = true) by (apply lisninf_ok, lninf_ok). congruence.
      - destruct vals as [|b|u]; cbn [parts] in Hvs; [destruct Hvs|destruct Hvs as [->|[]]; apply Ps|]. cbn [pieces] in Ps. rewrite Forall_forall in Ps. apply (Ps _ Hvs). }
    destruct (flatten_total disc vals Ne Rs Fin1 En) as (l & El & Il). rewrite El. cbn [bind].
    assert (Sub : forall u, mem u vals -> mem u (PB (BInt supp))) by (intros u Hu; now apply (pand_f io _ _ _ (W1 : wf (PB (BInt supp))) Wv E)).
    destruct (flatten_values_ok dlaw d disc supp vals l (fun Ed => proj2 (proj2 (W2 Ed))) Wr Ps Sub El) as (Fl & Sl). rewrite Forall_forall in Fl.
    assert (Isub : forall i, In i l -> forall u, (disc = true -> is_integer u) -> in_iv i u -> in_iv supp u).
    { intros i Hi u Iu Hu. assert (K : 0 < ind (fun v => fm v vals) u).
      { rewrite <- (Sl u Iu). apply Rlt_le_trans with (ind (in_iv i) u); [rewrite ind_true by auto; lra|]. clear -Hi. induction l as [|j l IH]; [destruct Hi|]. simpl.
        assert (0 <= sumR (map (fun i => ind (in_iv i) u) l)) by (apply sumR_nonneg, Forall_map, Forall_forall; intros; apply ind_01). pose proof (ind_01 _ (in_iv j) u).
        unfold sumR in *. destruct Hi as [->|Hi]; [lra|]. apply IH in Hi. lra. }
      unfold ind in K. destruct (dec (fm u vals)) as [Kf|]; [|lra]. now apply Fr. }
    assert (Sum : I (ind (fun u => fm u v)) = sumR (map (fun i => I (ind (in_iv i))) l)).
    { rewrite <- (law_sum LI) by (intros; auto with bnd).
      apply (law_as LI (fun v => ~ in_iv supp v \/ ~ (disc = true -> is_integer v)) _ _ (law_null_or LI _ _ (I_supp dlaw disc d supp cond W3 W4) (I_null dlaw disc d supp cond W3 W4 _ (null_integer dlaw disc d supp W2 W3)))); auto with bnd.
      - apply bnd_sum. auto with bnd.
      - intros u Hu. assert (Iu : disc = true -> is_integer u) by tauto. rewrite (Sl u Iu). apply ind_eq. rewrite Fr. tauto. }
    destruct (mapM_ok _ _ (fun i => do p <- leaf_logprob_interval disc d supp cond i; Ok (i, p)) (fun i p => fst p = i /\ toP (snd p) = I (ind (in_iv i))) l) as (ps & Em & Fp).
    { intros i Hi. destruct (Fl i Hi) as (Wi & Ri). destruct (interval_ok dlaw disc d supp cond W1 (disc_int _ _ _ _ _ _ _ W2) W3 W4 i Wi) as (p & Ep & Hp); [intros Ed; destruct (Ri Ed) as [(? & ? & _)|?]; auto|].
      rewrite Ep. cbn [bind]. eexists. split; [reflexivity|]. auto. }
    assert (Np' : positive ps <> []).
    { intros Z. assert (sumR (map (fun i => I (ind (in_iv i))) l) = 0); [|lra]. apply sumR_zero. intros i Hi. destruct (Forall2_in_l _ _ _ _ _ _ Fp Hi) as (p & Hp & <- & <-).
      destruct (toP_nonneg S (snd p)) as [K|K]; [|lra]. exfalso. assert (In p (positive ps)) by (now apply filter_In_pos). rewrite Z in *. contradiction. }
    assert (El' : l <> []) by (intros ->; inversion Fp; subst; now apply Np').
    assert (Goal' : exists t, (do ps <- mapM (fun i => do p <- leaf_logprob_interval disc d supp cond i; Ok (i, p)) l;
          match positive ps with
          | [] => Raise ValueError
          | qs => do weights <- lognorm (map snd qs); do children <- mapM (fun q => mk_RealLeaf disc x d (fst q) true env) qs; sum_or_one children weights
          end) = Ok t); [|destruct l; [tauto|exact Goal']].
    rewrite Em. cbn [bind].
    assert (Goal2 : exists t, (do weights <- lognorm (map snd (positive ps)); do children <- mapM (fun q => mk_RealLeaf disc x d (fst q) true env) (positive ps); sum_or_one children weights) = Ok t); [|destruct (positive ps); [tauto|exact Goal2]].
    assert (Qin : forall q, In q (positive ps) -> In (fst q) l /\ 0 < I (ind (in_iv (fst q)))).
    { intros q Hq'. apply filter_In_pos in Hq'. destruct Hq' as (Hin & Hp). destruct (Forall2_in_r _ _ _ _ _ _ Fp Hin) as (i & Hi & Ei & Ti). rewrite Ei. split; auto. now rewrite <- Ti. }
    destruct (lognorm_total (S:=S) (map snd (positive ps))) as (ws & Ews). { intros K. apply map_eq_nil in K. auto. }
    rewrite Ews. cbn [bind].
    destruct (mapM_ok _ _ (fun q : interval N * lg S => mk_RealLeaf disc x d (fst q) true env) (fun q c => c = RealLeaf disc x d (fst q) true env /\ wf_spe c) (positive ps)) as (cs & Ecs & Fcs).
    { intros q Hq'. destruct (Qin q Hq') as (Hi & Hp). destruct (Fl _ Hi) as (Wfi & Ri).
      destruct (restrict_law dlaw disc d supp cond W2 W3 W4 (fst q) (fun _ => 1) (Isub _ Hi) (bnd_const _ 1) Hp) as (Bp & _).
      assert (Ii : disc = true -> int_supp (fst q)) by (intros Ed; specialize (Il Ed); rewrite Forall_forall in Il; auto).
      exists (RealLeaf disc x d (fst q) true env). split; [now apply mk_RealLeaf_total|]. split; auto. destruct Wl as (_ & _ & _ & _ & Eo & Ef).
      cbn [SpeSpec.wf_spe SpeSpec.wf_leaf]. split; [auto|]. split; [|split; [auto|split; [auto|split; [auto|]]]].
      - intros Ed. destruct (Ii Ed). split; auto. split; auto. destruct (Ri Ed) as [(_ & _ & P0)|P0]; auto.
      - intros w. cbn [SpeSpec.den]. destruct (restrict_law dlaw disc d supp cond W2 W3 W4 (fst q) (fun v0 => ind (fun w0 => ~ env_fine env w0) (place x env w v0)) (Isub _ Hi)) as (_ & ->); [auto with bnd|auto|].
        specialize (Ef w). cbn [SpeSpec.den] in Ef. rewrite (law_null LI (fun v0 => ~ env_fine env (place x env w v0)) (fun u => ind (fun w0 => ~ env_fine env w0) (place x env w u) * ind (in_iv (fst q)) u)); [unfold Rdiv; ring|exact Ef|auto with bnd|].
        intros u Hu. rewrite ind_false by auto. ring. }
    rewrite Ecs. cbn [bind]. unfold sum_or_one. assert (Exp : Exists (fun a => 0 < toP a) (map snd (positive ps))).
    { destruct (positive ps) as [|q qs] eqn:Eqs; [tauto|]. left. assert (K : In q (positive ps)) by (rewrite Eqs; now left). apply filter_In_pos in K. apply K. }
    destruct (lognorm_ok _ _ Ews Exp) as (Nw & Tw).
    assert (Ncs : cs <> []) by (intros ->; inversion Fcs; auto).
    assert (Tot : exists t, mk_Sum cs ws = Ok t).
    { apply (mk_Sum_total dlaw); auto.
      - rewrite <- (Forall2_len _ _ _ _ _ Fcs). rewrite <- (Forall2_len _ _ _ _ _ Nw). now rewrite map_length.
      - apply Forall_forall. intros c Hc. destruct (Forall2_in_r _ _ _ _ _ _ Fcs Hc) as (q & _ & _ & K). exact K.
      - intros a b y Ha Hb. destruct (Forall2_in_r _ _ _ _ _ _ Fcs Ha) as (q & _ & -> & _). destruct (Forall2_in_r _ _ _ _ _ _ Fcs Hb) as (q' & _ & -> & _). auto. }
    destruct cs as [|c [|c' cs]]; eauto.
  Qed.
End Real.
