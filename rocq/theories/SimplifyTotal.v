(** Simplification of a sum of products gives a result. *)
From Coq Require Import List Bool String Reals Lra Lia ZArith.
From Verif Require Import Base Num Sets SetSpec SetIv SetProofs SetOr SetOps SetAlg SetBuilt
  Poly Trans TransSpec TransFacts PolyProofs InvProofs InvMain EvProofs ArithProofs
  Dnf DnfSpec DnfProofs DnfUnion Logs Spe SpeSpec SpeFacts SpeRect LeafProofs LeafEvents LeafCond SpeCons LeafGiven MemoProofs NormSorts LogprobProofs SpeEq SimplifyProofs SpeOps OpsProofs.
Import ListNotations.
Local Open Scope R_scope.

Section Simplify.
  Context {N : numsys} {S : logsys} {D : distsys N S}.
  Context (dlaw : dist D -> (fval -> R) -> R).
  Notation spe := (spe D).
  Notation wf_spe := (wf_spe dlaw).
  Context (Ed : eq_dist dlaw) (envof : string -> tenv (N:=N)).
  Context (P : spe -> Prop) (Pa : forall s, P s -> aenv envof s) (Q : Prop).
  Context (Ps : forall l, P (SumSPE l) <-> (Q -> Forall (fun c => 0 < toP (snd c)) l)) (Pp : forall l, P (ProductSPE l)).
  Notation parts_ok := (parts_ok dlaw P).
  Notation eqb_vars := (eqb_vars dlaw Ed envof P Pa).

  Lemma list_product_total : forall a, a <> [] -> parts_ok a -> exists t, spe_list_to_product a = Ok t.
  Proof.
    intros [|c [|c' a]] Ne (F & Ap); [tauto|eexists; reflexivity|]. cbn [spe_list_to_product]. apply (mk_Product_total dlaw); auto. eapply Forall_impl; [|exact F]. intros y (K & _). exact K.
  Qed.
  Lemma two_total : forall a b (ws : list (lg S)) pa pb, parts_ok a -> parts_ok b -> (forall x, pvars a x <-> pvars b x) -> List.length ws = 2%nat -> sumR (map toP ws) = 1 ->
    spe_list_to_product a = Ok pa -> spe_list_to_product b = Ok pb -> exists t, mk_Sum [pa; pb] ws = Ok t.
  Proof.
    intros a b ws pa pb Ka Kb V L T Ea Eb. destruct (list_product_ok dlaw P Pp a pa Ka Ea) as (_ & Wa & _ & Va & _). destruct (list_product_ok dlaw P Pp b pb Kb Eb) as (_ & Wb & _ & Vb & _).
    apply (mk_Sum_total dlaw); auto; [discriminate|]. intros c d x Hc Hd. assert (Q' : forall e, In e [pa; pb] -> (vars e x <-> pvars a x)) by (intros e [<-|[<-|[]]]; rewrite ?Va, ?Vb, ?V; tauto). rewrite (Q' c Hc), (Q' d Hd). auto.
  Qed.
  (** the children that the two lists do not share mention the same variables *)
  Lemma rest_vars : forall a b x, parts_ok a -> parts_ok b -> (forall x, pvars a x <-> pvars b x) ->
    pvars (filter (fun c => negb (existsb (fun cb => speqb c cb) b)) a) x -> pvars (filter (fun c => negb (existsb (fun ca => speqb ca c) a)) b) x.
  Proof.
    intros a b x Ka Kb V H. apply pvars_in in H. destruct H as (c & Hc & Vc). apply filter_In in Hc. destruct Hc as (Hc & Nc). apply negb_true_iff in Nc.
    assert (Hb : pvars b x) by (apply V, pvars_in; eauto). apply pvars_in in Hb. destruct Hb as (d & Hd & Vd). apply pvars_in. exists d. split; auto. apply filter_In. split; auto. apply negb_true_iff.
    destruct (existsb (fun ca => speqb ca d) a) eqn:Ex; auto. exfalso. apply existsb_exists in Ex. destruct Ex as (c' & Hc' & E').
    assert (Vc' : vars c' x) by (apply (eqb_vars a b c' d Ka Kb Hc' Hd E'); auto).
    destruct (FOP_in _ _ _ c c' (proj2 Ka) Hc Hc') as [<-|[K|K]]; [|exact (K x Vc Vc')|exact (K x Vc' Vc)]. assert (existsb (fun cb => speqb c cb) b = true) by (apply existsb_exists; eauto). congruence.
  Qed.
  Lemma rest_vars' : forall a b x, parts_ok a -> parts_ok b -> (forall x, pvars a x <-> pvars b x) ->
    pvars (filter (fun c => negb (existsb (fun ca => speqb ca c) a)) b) x -> pvars (filter (fun c => negb (existsb (fun cb => speqb c cb) b)) a) x.
  Proof.
    intros a b x Ka Kb V H. apply pvars_in in H. destruct H as (c & Hc & Vc). apply filter_In in Hc. destruct Hc as (Hc & Nc). apply negb_true_iff in Nc.
    assert (Hb : pvars a x) by (apply V, pvars_in; eauto). apply pvars_in in Hb. destruct Hb as (d & Hd & Vd). apply pvars_in. exists d. split; auto. apply filter_In. split; auto. apply negb_true_iff.
    destruct (existsb (fun cb => speqb d cb) b) eqn:Ex; auto. exfalso. apply existsb_exists in Ex. destruct Ex as (c' & Hc' & E').
    assert (Vc' : vars c' x) by (apply (eqb_vars a b d c' Ka Kb Hd Hc' E'); auto).
    destruct (FOP_in _ _ _ c c' (proj2 Kb) Hc Hc') as [<-|[K|K]]; [|exact (K x Vc Vc')|exact (K x Vc' Vc)]. assert (existsb (fun ca => speqb ca c) a = true) by (apply existsb_exists; eauto). congruence.
  Qed.
  Lemma helper_total : forall a wa b wb, a <> [] -> parts_ok a -> parts_ok b -> (forall x, pvars a x <-> pvars b x) -> 0 < toP wa -> exists st, simplify_helper (a, wa) b wb = Ok st /\ fst st <> [].
  Proof.
    intros a wa b wb Na Ka Kb V Pw. unfold simplify_helper. destruct (lognorm_total (S:=S) [wa; wb]) as (ws & Ews); [discriminate|]. rewrite Ews. cbn [bind].
    destruct (lse_ok S [wa; wb]) as (w & Ew & _); [discriminate|]. rewrite Ew. cbn [bind].
    apply lognorm_ok in Ews; [|now left]. destruct Ews as (Fw & Tw). pose proof (Forall2_len _ _ _ _ _ Fw) as Lw. cbn [List.length] in Lw.
    assert (Nb : b <> []).
    { intros ->. destruct a as [|c a]; [tauto|]. destruct (vars_some dlaw c) as (x & Hx); [destruct Ka as (F & _); inversion F; tauto|]. specialize (V x). rewrite !pvars_in in V. destruct V as (V & _). destruct V as (d & [] & _). exists c. split; auto. now left. }
    rewrite (count_dups (speqb (D:=D)) a b (parts_once_r dlaw Ed envof P Pa a b Ka Kb)).
    destruct (Nat.eqb (List.length (dups_l speqb a b)) 0).
    - destruct (list_product_total a Na Ka) as (pa & Epa). destruct (list_product_total b Nb Kb) as (pb & Epb). rewrite Epa, Epb. cbn [bind].
      destruct (two_total a b ws pa pb Ka Kb V (eq_sym Lw) Tw Epa Epb) as (s & ->). cbn [bind]. eexists. split; [reflexivity|discriminate].
    - destruct (Nat.eqb_spec (List.length (dups_l speqb a b)) (List.length a)) as [E2|E2]; [eexists; split; [reflexivity|exact Na]|].
      set (ua := filter (fun c => negb (existsb (fun cb => speqb c cb) b)) a). set (ub := filter (fun c => negb (existsb (fun ca => speqb ca c) a)) b).
      assert (Vr : forall x, pvars ua x <-> pvars ub x) by (intros x; split; [now apply rest_vars|now apply rest_vars']).
      assert (Nua : ua <> []).
      { intros E. apply E2. unfold dups_l. f_equal. apply filter_all. intros c Hc. destruct (existsb (fun y => speqb c y) b) eqn:Ex; auto. exfalso. assert (In c ua) by (unfold ua; apply filter_In; rewrite Ex; auto). rewrite E in *. contradiction. }
      assert (Kua : parts_ok ua) by now apply parts_filter. assert (Kub : parts_ok ub) by now apply parts_filter.
      assert (Nub : ub <> []).
      { intros E. destruct ua as [|c m] eqn:Eu; [tauto|]. destruct (vars_some dlaw c) as (x & Hx); [destruct Kua as (F & _); inversion F; tauto|]. assert (K : pvars ub x) by (apply Vr, pvars_in; exists c; split; auto; now left). rewrite E in K. apply pvars_in in K. destruct K as (d & [] & _). }
      destruct (list_product_total ua Nua Kua) as (pa & Epa). destruct (list_product_total ub Nub Kub) as (pb & Epb). rewrite Epa, Epb. cbn [bind].
      destruct (two_total ua ub ws pa pb Kua Kub Vr (eq_sym Lw) Tw Epa Epb) as (s & ->). cbn [bind]. eexists. split; [reflexivity|discriminate].
  Qed.
  Lemma fold_helper_total : forall l a wa, a <> [] -> parts_ok a -> Forall (fun c => parts_ok (product_children (fst c))) l ->
    Forall (fun c => forall x, pvars a x <-> pvars (product_children (fst c)) x) l -> 0 < toP wa -> (Q -> Forall (fun c => 0 < toP (snd c)) l) ->
    exists st, foldM (fun st c => simplify_helper st (product_children (fst c)) (snd c)) l (a, wa) = Ok st /\ fst st <> [].
  Proof.
    induction l as [|c l IH]; intros a wa Na Ka Fk Fv Pw Pl; cbn [foldM]; [eexists; split; [reflexivity|exact Na]|].
    inversion Fk as [|? ? Kc Fk']; subst. inversion Fv as [|? ? Vc Fv']; subst. destruct (helper_total a wa _ (snd c) Na Ka Kc Vc Pw) as ((a1 & w1) & E & Na1). rewrite E. cbn [bind fst] in *.
    destruct (helper_ok dlaw Ed envof P Pa Q Ps Pp a wa _ _ a1 w1 Ka Kc Vc Pw (fun q => Forall_inv (Pl q)) E) as (K1 & V1 & T1 & _). pose proof (toP_nonneg S (snd c)) as Nn.
    apply IH; auto; [|lra|intros q; exact (Forall_inv_tail (Pl q))]. eapply Forall_impl; [|exact Fv']. intros d Hd x. rewrite V1. apply Hd.
  Qed.
  Theorem simplify_product_total : forall l, wf_spe (SumSPE l) -> every P (SumSPE l) -> (forall c m, l = c :: m -> 0 < toP (snd c)) -> exists t, simplify_sum_product l = Ok t.
  Proof.
    intros l W Pe Fp. unfold simplify_sum_product. destruct (forallb (fun c => is_product (fst c)) l) eqn:Ep; [|eauto]. destruct l as [|(c, wc) l]; [apply sum_nonempty in W; tauto|]. rewrite forallb_forall in Ep.
    assert (Kc : forall d, In d ((c, wc) :: l) -> product_children (fst d) <> [] /\ parts_ok (product_children (fst d)) /\ (forall x, vars (fst d) x <-> pvars (product_children (fst d)) x)).
    { intros d Hd. pose proof (Ep d Hd) as Ip. pose proof (sum_wf dlaw _ W d Hd) as Wd. pose proof (every_sum P _ d Pe Hd) as Pd. destruct (fst d) as [| | | |m]; try discriminate. cbn [product_children].
      split; [apply Wd|]. split; [|reflexivity]. split; [|apply Wd]. apply Forall_forall. intros y Hy. split; [eapply prod_wf; eauto|eapply every_prod; eauto]. }
    pose proof (Fp _ _ eq_refl) as Pc. cbn [snd] in Pc. cbn [fst snd].
    assert (F1 : Forall (fun c => parts_ok (product_children (fst c))) l) by (apply Forall_forall; intros d Hd; apply Kc; now right).
    assert (F2 : Forall (fun d => forall x, pvars (product_children c) x <-> pvars (product_children (fst d)) x) l).
    { apply Forall_forall. intros d Hd x. rewrite <- (proj2 (proj2 (Kc (c, wc) (or_introl eq_refl)))), <- (proj2 (proj2 (Kc d (or_intror Hd)))). cbn [fst].
      rewrite <- (sum_vars dlaw _ _ W (or_introl eq_refl)), <- (sum_vars dlaw _ d W (or_intror Hd)). tauto. }
    assert (F3 : Q -> Forall (fun c => 0 < toP (snd c)) l) by (intros q; apply every_here in Pe; exact (Forall_inv_tail (proj1 (Ps _) Pe q))).
    destruct (Kc (c, wc) (or_introl eq_refl)) as (Nc & Kcc & _). cbn [fst] in Nc, Kcc.
    destruct (fold_helper_total l (product_children c) wc Nc Kcc F1 F2 Pc F3) as ((a', w') & E & Na). rewrite E. cbn [bind fst snd] in *.
    destruct (fold_helper_ok dlaw Ed envof P Pa Q Ps Pp l (product_children c) wc a' w' Kcc F1 F2 Pc F3 E) as (Ka & _ & Ta & _).
    destruct (lse_ok S [w']) as (t & Et & Ht); [discriminate|]. rewrite Et. cbn [bind]. rewrite (lclose_ok S t lzero); [cbn [passert bind]; now apply list_product_total|].
    rewrite Ht, lzero_ok. cbn [map sumR fold_right]. rewrite Rplus_0_r, Ta. destruct W as (_ & W1 & _). exact W1.
  Qed.
End Simplify.
