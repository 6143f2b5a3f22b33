(** The sorts of the variables of an expression, and what conditioning a leaf keeps. *)
From Coq Require Import List Bool String Reals Lra Lia ZArith QArith Qreals FunctionalExtensionality Permutation.
From Verif Require Import Base Num Sets SetSpec SetIv SetProofs SetOr SetOps SetAlg SetBuilt
  Poly Trans TransSpec TransFacts PolyProofs InvProofs InvMain EvProofs ArithProofs
  Dnf DnfSpec DnfProofs DnfUnion Logs Spe SpeSpec SpeFacts SpeRect LeafProofs LeafEvents LeafCond SpeCons LeafGiven MemoProofs NormSorts LogprobProofs LogprobTop SpeEq SimplifyProofs.
Import ListNotations.
Local Open Scope R_scope.

Section Types.
  Context {N : numsys} {S : logsys} {D : distsys N S} (io : iterorder N) (po : polyoracle N) (fuel : nat).
  Context (dlaw : dist D -> (fval -> R) -> R) (nominal : string -> bool) (envof : string -> tenv (N:=N)).
  Notation spe := (spe D).
  Notation tr := (tr N).
  Notation den := (den dlaw).
  Notation wf_spe := (wf_spe dlaw).
  Notation wf_leaf := (wf_leaf dlaw).

  (** numeric leaves have numeric variables and nominal leaves nominal ones; the atoms of one
      variable have one environment; weights are positive *)
  Definition part_ok (s : spe) : Prop :=
    match s with
    | RealLeaf _ _ _ _ _ env => forall x, In x (map fst env) -> nominal x = false
    | AtomicLeaf x _ env => env = envof x /\ forall y, In y (map fst env) -> nominal y = false
    | NominalLeaf x _ => nominal x = true
    | SumSPE l => Forall (fun c => 0 < toP (snd c)) l
    | ProductSPE _ => True
    end.
  Definition typed : spe -> Prop := every part_ok.
  Lemma part_aenv : forall s, part_ok s -> aenv envof s.
  Proof. intros [] H; cbn; auto. apply H. Qed.
  Lemma part_sum : forall l, part_ok (SumSPE l) <-> (True -> Forall (fun c => 0 < toP (snd c)) l).
  Proof. intros l. cbn. tauto. Qed.
  Lemma part_prod : forall l, part_ok (ProductSPE l).
  Proof. intros l. exact Logic.I. Qed.
  Lemma typed_atoms : forall s, typed s -> atoms_ok nominal s.
  Proof.
    induction s using spe_ind'; intros T; cbn [atoms_ok]; auto.
    - apply every_here in T. apply T.
    - apply all_forall. intros c Hc. apply H; auto. eapply every_sum; eauto.
    - apply all_forall. intros c Hc. apply H; auto. eapply every_prod; eauto.
  Qed.

  (** ** Values have the sorts of their variables *)
  Lemma pick_some : forall l v, pick l = Some v -> exists e, In (Some v, e) l.
  Proof.
    induction l as [|(a, e) l IH]; intros v H; [discriminate|]. cbn [pick] in H. destruct (dec (e = one)); [exists e; rewrite H; now left|]. destruct (IH v H) as (e' & K). exists e'. now right.
  Qed.
  Lemma num_op_num : forall f o v, num_op f o = Some v -> is_num v.
  Proof. intros f [[x|]|] v H; cbn in H; try discriminate. destruct (f x); [|discriminate]. injection H as <-. eexists; reflexivity. Qed.
  Lemma truth_num : forall P v, truth P = Some v -> is_num v.
  Proof. intros P v. unfold truth, one, zero. destruct (dec P); intros H; injection H as <-; eexists; reflexivity. Qed.
  Lemma teval_num : forall (t : tr) w v, (forall x, In x (symbols t) -> is_num (w x)) -> teval t w = Some v -> is_num v.
  Proof.
    induction t using tr_ind'; intros w v0 Hn Hv; cbn [teval] in Hv; try (now apply num_op_num in Hv).
    - injection Hv as <-. apply Hn. now left.
    - apply pick_some in Hv. destruct Hv as (e & He). apply in_map_iff in He. destruct He as (p & Ep & Hp). injection Ep as E1 E2. rewrite Forall_forall in H.
      apply (proj1 (H p Hp)) with (w := w); auto. intros x Hx. apply Hn. cbn [symbols]. apply in_sunions. exists (symbols (fst p)). split; auto. apply in_map_iff. eauto.
    - destruct k, (teval t w) as [[]|]; try discriminate; now apply truth_num in Hv.
    - unfold kor, one, zero in Hv. destruct (dec _); [|destruct (dec _)]; try discriminate; injection Hv as <-; eexists; reflexivity.
    - unfold kand, one, zero in Hv. destruct (dec _); [|destruct (dec _)]; try discriminate; injection Hv as <-; eexists; reflexivity.
  Qed.
  Lemma value_num : forall (t : tr) w, (forall x, In x (symbols t) -> is_num (w x)) -> is_num (value_or (teval t w)).
  Proof. intros t w H. destruct (teval t w) as [v|] eqn:E; cbn; [eapply teval_num; eauto|eexists; reflexivity]. Qed.
  Lemma derive_num : forall X env, env_built (N:=N) X env -> forall w, is_num (w X) -> forall y, In y (map fst env) -> is_num (derive env w y).
  Proof.
    intros X env B. induction B as [|env y t B IH Fr Sy]; intros w Hw z Hz.
    - cbn [map fst] in Hz. destruct Hz as [<-|[]]. cbn [derive teval value_or]. unfold upd. now rewrite String.eqb_refl.
    - rewrite derive_app. cbn [derive]. unfold upd. destruct (String.eqb_spec y z) as [<-|Ne].
      + apply value_num. intros x Hx. apply IH; auto.
      + apply IH; auto. rewrite map_app in Hz. apply in_app_iff in Hz. cbn in Hz. destruct Hz as [Hz|[Hz|[]]]; [auto|congruence].
  Qed.
  Definition sort1 (x : string) (v : fval) : Prop := match v with FStr _ => nominal x = true | FNum _ => nominal x = false end.
  Definition bad (V : string -> Prop) (w : asg) : Prop := exists x, V x /\ ~ sort1 x (w x).
  Lemma leaf_num : forall s, wf_leaf s -> (forall x ws, s <> NominalLeaf x ws) -> leaf_den_law dlaw s (ind (fun v => ~ is_num v)) = 0.
  Proof.
    intros s W Nn. destruct s as [disc x d supp cond env|x a env|x ws|l|l]; try contradiction.
    - cbn [leaf_den_law]. destruct W as (_ & _ & Dk & _). pose proof (law_full (d_law _ _ _ Dk) _ (d_num _ _ _ Dk)) as Z. unfold real_law. destruct cond; auto.
      rewrite (law_null (d_law _ _ _ Dk) (fun v => ~ is_num v) (fun v => ind (fun v => ~ is_num v) v * ind (in_iv supp) v)); auto with bnd; [unfold Rdiv; ring|]. intros a Ha. rewrite (ind_false _ (fun v => ~ is_num v)) by auto. ring.
    - cbn [leaf_den_law]. apply ind_false. intros K. apply K. eexists; reflexivity.
    - destruct (Nn x ws eq_refl).
  Qed.
  Lemma leaf_sorted : forall s, wf_leaf s -> part_ok s -> forall w, den s (ind (bad (vars s))) w = 0.
  Proof.
    intros s W T w. rewrite den_leaf by (now apply (wf_leaf_leaf dlaw)). pose proof (leaf_law_law dlaw s W) as L.
    assert (Num : forall x (env : tenv (N:=N)), (forall v, leaf_place s w v = place x env w v) -> env_built x env -> (forall y, vars s y <-> In y (map fst env)) -> (forall y, In y (map fst env) -> nominal y = false) ->
      (forall x ws, s <> NominalLeaf x ws) -> leaf_den_law dlaw s (fun v => ind (bad (vars s)) (leaf_place s w v)) = 0).
    { intros x env Ep B Vs Nm Ns. apply (law_null L (fun v => ~ is_num v)); [now apply leaf_num|apply (bnd_comp _ _ (leaf_place s w)); auto with bnd|].
      intros v Hv. apply ind_false. intros (y & Hy & K). apply K. apply Vs in Hy. rewrite Ep. unfold place. destruct (derive_num x env B (upd w x v)) with (y := y) as (r & Er); auto.
      - unfold upd. rewrite String.eqb_refl. destruct (dec (is_num v)); tauto.
      - rewrite Er. cbn. auto. }
    destruct s as [disc x d supp cond env|x a env|x ws|l|l]; try contradiction.
    - apply (Num x env); auto; try discriminate; [apply W|reflexivity].
    - apply (Num x env); auto; try discriminate; [apply W|reflexivity|apply T].
    - cbn [leaf_den_law leaf_place]. unfold nom_law. rewrite (sumR_ext _ _ (fun _ => 0)).
      + clear. induction ws; simpl; auto. rewrite IHws. ring.
      + intros p Hp. rewrite ind_false; [ring|]. intros (y & <- & K). apply K. unfold upd. rewrite String.eqb_refl. exact T.
  Qed.
  Theorem typed_sorted : forall s, wf_spe s -> typed s -> forall w, den s (ind (bad (vars s))) w = 0.
  Proof.
    assert (Z0 : forall A (l : list A), sumR (map (fun _ => 0) l) = 0) by (induction l as [|? l IH]; cbn [map sumR fold_right]; [auto|fold (sumR (map (fun _ : A => 0) l)); lra]).
    induction s using spe_ind'; intros W T w.
    - apply leaf_sorted; auto. now apply every_here in T.
    - apply leaf_sorted; auto. now apply every_here in T.
    - apply leaf_sorted; auto. now apply every_here in T.
    - cbn [SpeSpec.den]. rewrite (sumR_ext _ _ (fun _ => 0)); [apply Z0|]. intros c Hc. rewrite (ind_iff _ _ (bad (vars (fst c)))).
      + rewrite H; auto; [ring|eapply sum_wf; eauto|eapply every_sum; eauto].
      + intros a. unfold bad. split; intros (x & Hx & K); exists x; (split; [|auto]); now apply (sum_vars dlaw l c W Hc).
    - cbn [SpeSpec.den]. destruct W as (Ne & Wl & Ap). change (vars (ProductSPE l)) with (pvars l). clear Ne.
      assert (Tl : All typed l) by (apply all_forall; intros c Hc; eapply every_prod; eauto). clear T. revert w. induction l as [|c l IH]; intros w.
      + cbn. apply ind_false. intros (x & [] & _).
      + destruct Wl as (Wc & Wl), Tl as (Tc & Tl). inversion Ap as [|? ? A1 A2]; subst. pose proof (prod_kernel dlaw (c :: l) (conj Wc Wl) w) as K.
        apply (law_null_sub K (fun a => bad (vars c) a \/ bad (pvars l) a)).
        * apply (law_null_or K); cbn [SpeSpec.den_prod].
          -- rewrite (law_ext (I:=fun f => den c f w) _ (ind (bad (vars c)))); [apply H; [now left|auto|auto]|]. intros a.
             rewrite <- (Rmult_1_l (ind (bad (vars c)) a)) at 1. transitivity (den_prod den l (fun a => 1 * ind (bad (vars c)) a) a).
             ++ f_equal. extensionality b. ring.
             ++ rewrite (prod_factor dlaw l (fun _ => 1) (ind (bad (vars c)))); auto with bnd.
                ** rewrite (law_const (prod_kernel dlaw l Wl a)). ring.
                ** intros u u' E. apply ind_eq. assert (Eq : forall x, vars c x -> u x = u' x) by (intros x Hx; apply E; intros Hp; exact (apart_pvars c l A1 x Hx Hp)).
                   unfold bad. split; intros (x & Hx & Hb); exists x; (split; [auto|]); [rewrite <- Eq|rewrite Eq]; auto.
          -- rewrite (law_ext (I:=fun f => den c f w) _ (fun _ => 0)); [apply (law_const (den_kernel dlaw c Wc w))|]. intros a. apply IH; auto. intros d Hd. apply H. now right.
        * intros a (x & Hx & Hb). apply pvars_cons in Hx. destruct Hx as [Hx|Hx]; [left|right]; exists x; auto.
  Qed.

  (** ** Leaves keep their sorts *)
  Lemma lognorm_pos : forall (l : list (lg S)) ws, l <> [] -> Forall (fun w => 0 < toP w) l -> lognorm l = Ok ws ->
    Forall (fun w => 0 < toP w) ws /\ sumR (map toP ws) = 1 /\ Forall2 (fun a b => toP b * sumR (map toP l) = toP a) l ws.
  Proof.
    intros l ws Ne F H. assert (Ex : Exists (fun a => 0 < toP a) l) by (destruct F; [tauto|now left]). destruct (lognorm_ok l ws H Ex) as (F2 & T). pose proof (sum_pos l Ex) as Sp.
    split; [|split; auto].
    - clear -F F2 Sp. revert F2 F Sp. generalize (sumR (map toP l)). intros t F2. induction F2 as [|a b l ws E F2 IH]; intros F Sp; constructor; inversion F; subst; auto. rewrite E. now apply Rdiv_lt_0_compat.
    - clear -F2 Sp. revert F2 Sp. generalize (sumR (map toP l)). intros t F2. induction F2 as [|a b l ws E F2 IH]; intros Sp; constructor; auto. rewrite E. field. lra.
  Qed.
  Lemma positive_pos : forall A (l : list (A * lg S)), Forall (fun w => 0 < toP w) (map snd (positive l)).
  Proof. intros A l. rewrite Forall_map. apply Forall_forall. intros a Ha. now apply filter_In_pos in Ha. Qed.
  Lemma sum_or_one_typed : forall cs (ws : list (lg S)) t, Forall typed cs -> Forall (fun w => 0 < toP w) ws -> sum_or_one cs ws = Ok t -> typed t.
  Proof.
    intros cs ws t F Fw H. unfold sum_or_one in H. destruct cs as [|c [|c' cs]].
    - apply (mk_Sum_every part_ok True part_sum [] ws); auto.
    - injection H as <-. now inversion F.
    - apply (mk_Sum_every part_ok True part_sum (c :: c' :: cs) ws); auto.
  Qed.
  Lemma solved_condition_typed : forall s v t, part_ok s -> leaf_solved_condition io s v = Ok t -> typed t.
  Proof.
    intros s v t P H. destruct s as [disc x d supp cond env|x a env|x ws|l|l]; cbn [leaf_solved_condition] in H; try discriminate.
    - inv_bind H. inv_bind H. destruct (lisninf r0); [discriminate|]. destruct (peqb r _); [injection H as <-; now apply every_leaf|]. inv_bind H.
      destruct r1 as [|i l]; [discriminate|]. inv_bind H. destruct (positive r1) as [|q qs] eqn:Eq; [discriminate|]. inv_bind H. inv_bind H.
      apply (sum_or_one_typed r3 r2); auto.
      + apply mapM_Forall2 in E4. apply Forall_forall. intros c Hc. destruct (Forall2_in_r _ _ _ _ _ _ E4 Hc) as (p & _ & K). unfold mk_RealLeaf in K; inv_bind K; inv_bind K; injection K as <-. now apply every_leaf.
      + apply lognorm_pos in E3; [apply E3|discriminate|]. rewrite <- Eq. apply positive_pos.
    - inv_bind H. inv_bind H. injection H as <-. now apply every_leaf.
    - inv_bind H. inv_bind H. destruct r0 as [|[vs b| |]|]; try discriminate. inv_bind H. destruct (Qeq_bool r0 0); [discriminate|]. destruct (Qeq_bool r0 1); [injection H as <-; now apply every_leaf|].
      unfold mk_NominalLeaf in H. inv_bind H. inv_bind H. injection H as <-. now apply every_leaf.
  Qed.
End Types.
