(** Exposed sums, merging of equal leaves in a sum, and sharing of equal subtrees keep the law. *)
From Coq Require Import List Bool String Reals Lra Lia ZArith QArith Qreals FunctionalExtensionality Permutation.
From Verif Require Import Base Num Sets SetSpec SetIv SetProofs SetOr SetOps SetAlg SetBuilt
  Poly Trans TransSpec TransFacts PolyProofs InvProofs InvMain EvProofs ArithProofs
  Dnf DnfSpec DnfProofs DnfUnion Logs Spe SpeSpec SpeFacts SpeRect LeafProofs LeafEvents LeafCond SpeCons LeafGiven SpeEq SimplifyProofs MemoProofs SpeOps OpsProofs.
Import ListNotations.
Local Open Scope R_scope.

Section BuildProofs.
  Context {N : numsys} {S : logsys} {D : distsys N S} (io : iterorder N) (so : strorder) (po : polyoracle N) (fuel : nat).
  Context (dlaw : dist D -> (fval -> R) -> R).
  Notation spe := (spe D).
  Notation tr := (tr N).
  Notation den := (den dlaw).
  Notation den_prod := (den_prod den).
  Notation wf_spe := (wf_spe dlaw).
  Notation wf_leaf := (wf_leaf dlaw).

  (** ** Exposed sums *)
  Lemma nom_point : forall ws n, NoDup (map fst ws) -> nom_law ws (ind (eq (FStr n))) = weight_at ws n.
  Proof.
    intros ws n Nd. rewrite nom_law_keys by auto. destruct (in_dec String.string_dec n (map fst ws)) as [Hn|Hn].
    - apply in_split in Hn. destruct Hn as (l1 & l2 & E). rewrite E in *. apply NoDup_remove_2 in Nd. rewrite map_app, sumR_app. cbn [map sumR fold_right].
      rewrite ind_true by auto. fold (sumR (map (fun x => ind (eq (FStr n)) (FStr x) * weight_at ws x) l2)).
      rewrite (sumR_zero _ _ l1), (sumR_zero _ _ l2); [lra| |]; intros a Ha; rewrite ind_false; try ring; intros [= ->]; apply Nd; apply in_app_iff; auto.
    - rewrite sumR_zero; [unfold weight_at; destruct (lookup n ws) eqn:E; auto; exfalso; apply Hn; apply lookup_some in E; now apply (in_map fst) in E|].
      intros a Ha. rewrite ind_false; [ring|]. intros [= ->]. auto.
  Qed.
  Lemma weight_ok : forall x ws n e p, wf_leaf (NominalLeaf x ws) -> t_in_list (TId x) [VStr n] = Ok e -> leaf_logprob io po fuel (D:=D) (NominalLeaf x ws) e = Ok p ->
    toP p = weight_at ws n.
  Proof.
    intros x ws n e p W E H.
    destruct (t_in_list_ok (TId x) [VStr n] e) as (G & He); [exact Logic.I|exact Logic.I|exact E|].
    assert (Rg : forall w, regular true e w).
    { injection E as <-. intros w. cbn. auto. }
    rewrite (leaf_logprob_ok io po fuel dlaw (NominalLeaf x ws) e p W G) with (w := w0); auto.
    - rewrite <- nom_point by apply W. cbn [SpeSpec.den]. f_equal. extensionality v. apply ind_eq. rewrite He. split.
      + intros (y & u & Ty & [<-|[]] & Hu). cbn in Ty. injection Ty as <-. unfold upd in Hu. rewrite String.eqb_refl in Hu. destruct v; cbn in Hu; [contradiction|congruence].
      + intros <-. exists (FStr n), (VStr n). cbn. unfold upd. rewrite String.eqb_refl. auto.
    - intros w. cbn [SpeSpec.den]. unfold nom_law. apply sumR_zero. intros a Ha. rewrite ind_false; [ring|]. intros K. apply K. apply Rg.
    - intros A. destruct A.
  Qed.
  Lemma point_leaf : forall x n l, mk_NominalLeaf (D:=D) x [(n, 1%Q)] = Ok l -> l = NominalLeaf x [(n, 1%Q)] /\ wf_spe l /\ forall f w, den l f w = f (upd w x (FStr n)).
  Proof.
    intros x n l H. injection H as <-. split; auto. split.
    - split; [cbn; constructor; [intros []|constructor]|]. split; [|reflexivity]. apply Forall_cons; [discriminate|apply Forall_nil].
    - intros f w. cbn [SpeSpec.den]. unfold nom_law. cbn [map sumR fold_right fst snd]. unfold Q2R. cbn. lra.
  Qed.
  Definition exposed_term (children : list (string * spe)) (x : string) (f : asg -> R) (w : asg) (n : string) : R :=
    match lookup n children with Some c => den c f (upd w x (FStr n)) | None => 0 end.
  Theorem exposed_ok : forall children x ws t, wf_leaf (NominalLeaf x ws) -> Forall (fun p => wf_spe (snd p)) children ->
    ExposedSumSPE io so po fuel children x ws = Ok t ->
    wf_spe t /\
    (forall n, In n (map fst ws) -> exists c, lookup n children = Some c /\ ~ vars c x /\ forall z, vars t z <-> vars c z \/ z = x) /\
    forall f w, den t f w = sumR (map (fun p => Q2R (snd p) * exposed_term children x f w (fst p)) ws).
  Proof.
    intros children x ws t W Wc H. unfold ExposedSumSPE in H. inv_bind H. inv_bind H. apply mapM_Forall2 in E, E0. rewrite Forall_forall in Wc.
    assert (Pm := it_str_perm so (map fst ws)). set (sup := it_str so (map fst ws)) in *. clearbody sup.
    assert (Kw : map toP r = map (weight_at ws) sup).
    { clear -E W dlaw. induction E as [|n p l m Hn _ IH]; auto. cbn [map]. f_equal; auto. inv_bind Hn. now apply (weight_ok x ws n r). }
    assert (Kc : forall n c', exposed_child x children n = Ok c' -> wf_spe c' /\ exists c, lookup n children = Some c /\ wf_spe c /\ ~ vars c x /\ (forall z, vars c' z <-> vars c z \/ z = x) /\ forall f w, den c' f w = den c f (upd w x (FStr n))).
    { intros n c' Hc. unfold exposed_child in Hc. inv_bind Hc. destruct (lookup n children) as [c|] eqn:L; [|discriminate].
      destruct (point_leaf x n r1 E1) as (-> & Wl & Dl). pose proof (Wc (n, c) (lookup_some _ _ _ _ L)) as Wcc. cbn [snd] in Wcc.
      destruct (mk_Product_ok dlaw _ _ (Forall_cons _ Wl (Forall_cons _ Wcc (Forall_nil _))) Hc) as (Wt & _ & Vt & _ & Ap & Dt). split; auto. exists c. split; auto. split; auto. split; [|split].
      - inversion Ap as [|? ? F _]; subst. inversion F as [|? ? F' _]; subst. intros K. apply (F' x); [reflexivity|auto].
      - intros z. rewrite Vt. split.
        + intros (d & [<-|[<-|[]]] & Hd); [right; cbn in Hd; auto|auto].
        + intros [K|K]; [exists c; simpl; auto|]. exists (NominalLeaf x [(n, 1%Q)]). split; [now left|]. cbn. auto.
      - intros f w. rewrite Dt. cbn [SpeSpec.den_prod]. rewrite Dl. reflexivity. }
    assert (Wk : Forall wf_spe r0).
    { clear -E0 Kc dlaw. induction E0 as [|n c' l m Hn _ IH]; constructor; auto. now apply (Kc n). }
    assert (Tot : sumR (map toP r) = 1).
    { rewrite Kw. rewrite <- (sumR_perm_map _ _ _ _ Pm). destruct W as (Nd & _ & T). rewrite <- (Rmult_1_l (sumR _)). rewrite Rmult_1_l.
      rewrite <- RMicromega.Q2R_1. rewrite <- (Qeq_eqR _ _ T). rewrite <- (sumR_ext _ (fun n => 1 * weight_at ws n)) by (intros; ring).
      rewrite <- (nom_law_keys ws (fun _ => 1) Nd). clear. unfold nom_law. induction ws as [|(n, q) ws IH]; [unfold Q2R; cbn; lra|]. cbn [map sumR fold_right Qsum fst snd] in *. unfold sumR, Qsum in IH. rewrite IH, Q2R_plus. lra. }
    destruct (mk_Sum_ok dlaw r0 r t Wk H Tot) as (Len & Wt & _ & Vt & Dt). split; auto. split.
    - intros n Hn. apply (Permutation_in _ Pm) in Hn. destruct (Forall2_in_l _ _ _ _ _ _ E0 Hn) as (c' & Hc' & Ec). destruct (Kc n c' Ec) as (_ & c & L & _ & Nv & Vc & _). exists c. split; auto. split; auto. intros z. rewrite (Vt c' z Hc'). apply Vc.
    - intros f w. rewrite Dt. destruct W as (Nd & _ & _).
      transitivity (sumR (map (fun n => weight_at ws n * exposed_term children x f w n) sup)).
      + clear -E E0 Kw Kc. revert r E Kw. induction E0 as [|n c' l m Hn _ IH]; intros [|p r] E Kw; try discriminate; auto. cbn [map] in Kw. injection Kw as Kp Kr. cbn [combine map sumR fold_right fst snd].
        inversion E; subst. rewrite Kp. unfold sumR in IH. rewrite IH by auto. f_equal. f_equal. destruct (Kc n c' Hn) as (_ & c & L & _ & _ & _ & Dc). unfold exposed_term. rewrite L. apply Dc.
      + rewrite <- (sumR_perm_map _ _ _ _ Pm), map_map. apply sumR_ext. intros (n, q) Hn. cbn [fst snd]. unfold weight_at. now rewrite (lookup_nodup _ n ws q Nd Hn).
  Qed.

  (** ** Blocks of equal hash *)
  Lemma add_block_ok : forall A (h : A -> Z) a p l, Permutation (List.concat (map snd p)) l -> (forall k b, In (k, b) p -> b <> [] /\ forall c, In c b -> h c = k) ->
    Permutation (List.concat (map snd (add_block (h a) a p))) (a :: l) /\ (forall k b, In (k, b) (add_block (h a) a p) -> b <> [] /\ forall c, In c b -> h c = k).
  Proof.
    intros A h a p. induction p as [|(k, b) p IH]; intros l Pm K.
    - cbn in *. apply Permutation_nil in Pm. subst. split; [reflexivity|]. intros k b [[= <- <-]|[]]. split; [discriminate|]. intros c [<-|[]]. reflexivity.
    - cbn [add_block]. destruct (Z.eqb_spec (h a) k) as [Ek|Ne].
      + subst k. cbn [map snd List.concat] in *. split.
        * rewrite <- app_assoc. cbn [app]. rewrite <- Permutation_middle. now constructor.
        * intros k' b' [[= <- <-]|Hb]; [|apply K; now right]. split; [destruct b; discriminate|]. intros c Hc. apply in_app_iff in Hc. destruct Hc as [Hc|[<-|[]]]; auto. apply (K (h a) b); auto. now left.
      + cbn [map snd List.concat] in *. destruct (IH (List.concat (map snd p)) (Permutation_refl _)) as (P1 & K1); [intros; apply K; now right|]. split.
        * rewrite P1. rewrite <- Permutation_middle. now constructor.
        * intros k' b' [[= <- <-]|Hb]; [apply K; now left|now apply K1].
  Qed.
  Lemma blocks_ok : forall A (h : A -> Z) l, Permutation (List.concat (partition_list_blocks h l)) l /\
    forall b, In b (partition_list_blocks h l) -> b <> [] /\ forall c d, In c b -> In d b -> h c = h d.
  Proof.
    intros A h l. unfold partition_list_blocks.
    assert (K : forall l q m, Permutation (List.concat (map snd q)) m -> (forall k b, In (k, b) q -> b <> [] /\ forall c, In c b -> h c = k) ->
      let p := fold_left (fun p a => add_block (h a) a p) l q in Permutation (List.concat (map snd p)) (l ++ m) /\ (forall k b, In (k, b) p -> b <> [] /\ forall c, In c b -> h c = k)).
    { clear l. induction l as [|a l IH]; intros q m P1 K1; cbn [fold_left app]; auto. destruct (add_block_ok A h a q m P1 K1) as (P2 & K2). destruct (IH _ _ P2 K2) as (P3 & K3). split; auto.
      rewrite P3. symmetry. apply Permutation_middle. }
    destruct (K l [] [] (Permutation_refl _)) as (P & Kb); [intros k b []|]. rewrite app_nil_r in P. split; auto. intros b Hb. apply in_map_iff in Hb. destruct Hb as ((k, b') & <- & Hb). cbn [snd]. destruct (Kb k b' Hb) as (Ne & E). split; auto.
    intros c d Hc Hd. rewrite (E c), (E d); auto.
  Qed.

  (** ** Sums of leaves *)
  Context (Ed : eq_dist dlaw) (envof : string -> tenv (N:=N)) (hash : spe -> Z).
  Theorem simplify_leaf_ok : forall l t, wf_spe (SumSPE l) -> every (aenv envof) (SumSPE l) ->
    (forall c d, In c l -> In d l -> is_leaf (fst c) = true -> is_leaf (fst d) = true -> hash (fst c) = hash (fst d) -> speqb (fst c) (fst d) = true) ->
    simplify_sum_leaf hash l = Ok t ->
    wf_spe t /\ (forall x, vars t x <-> vars (SumSPE l) x) /\ forall f w, den t f w = den (SumSPE l) f w.
  Proof.
    intros l t W Ae Hh H. unfold simplify_sum_leaf in H. inv_bind H. unfold passert in E. destruct (forallb (fun c => is_leaf (fst c)) l) eqn:Il; [|discriminate]. clear E. rewrite forallb_forall in Il. destruct (blocks_ok _ (fun c : spe * lg S => hash (fst c)) l) as (Pm & Kb). set (p := partition_list_blocks (fun c : spe * lg S => hash (fst c)) l) in *. clearbody p.
    destruct (Nat.eqb _ _); [injection H as <-; split; [exact W|]; split; [tauto|reflexivity]|].
    assert (Inp : forall b c, In b p -> In c b -> In c l) by (intros b c Hb Hc; apply (Permutation_in _ Pm); apply in_concat; eauto).
    assert (Eq : forall b c d, In b p -> In c b -> In d b -> forall f w, den (fst c) f w = den (fst d) f w).
    { intros b c d Hb Hc Hd. pose proof (Inp b c Hb Hc) as Ic. pose proof (Inp b d Hb Hd) as Id. apply (speqb_ok dlaw Ed envof); try (now apply (sum_wf dlaw l)); try (now apply (every_sum (aenv envof) l)). apply Hh; auto. now apply (Kb b). }
    assert (Tot : sumR (map (fun b => sumR (map (fun c => toP (snd c)) b)) p) = 1).
    { rewrite <- sumR_concat_map. rewrite (sumR_perm_map _ _ _ _ Pm). apply W. }
    assert (Law : forall f w, den (SumSPE l) f w = sumR (map (fun b => sumR (map (fun c => toP (snd c) * den (fst c) f w) b)) p)).
    { intros f w. cbn [SpeSpec.den]. rewrite <- (sumR_perm_map _ _ _ _ Pm). apply sumR_concat_map. }
    assert (One : forall b c, In b p -> In c b -> forall f w, sumR (map (fun c => toP (snd c) * den (fst c) f w) b) = sumR (map (fun c => toP (snd c)) b) * den (fst c) f w).
    { intros b c Hb Hc f w. rewrite <- sumR_scale. apply sumR_ext. intros d Hd. now rewrite (Eq b d c Hb Hd Hc). }
    destruct (Nat.eq_dec (List.length p) 1) as [L1|L1].
    - destruct p as [|b [|]]; try discriminate. destruct b as [|c b]; [discriminate|]. injection H as <-.
      assert (Hc : In c l) by (apply (Inp (c :: b)); now left). split; [now apply (sum_wf dlaw l)|]. split; [intros x; now rewrite (sum_vars dlaw l c W Hc)|].
      intros f w. rewrite Law. cbn [map sumR fold_right] in Tot |- *. fold (sumR (map (fun c => toP (snd c)) b)) in Tot.
      rewrite Rplus_0_r in Tot. specialize (One (c :: b) c (or_introl eq_refl) (or_introl eq_refl) f w). cbn [map sumR fold_right] in One. rewrite One. unfold sumR in Tot. rewrite Tot. ring.
    - assert (H' : (do cs <- mapM (fun b => match b with c :: _ => Ok (fst c) | [] => Raise IndexError end) p; do ws <- mapM (fun b => lse (map snd b)) p; mk_Sum cs ws) = Ok t) by (destruct p as [|b [|]]; [exact H|cbn in L1; lia|exact H]).
      clear H. inv_bind H'. inv_bind H'. apply mapM_Forall2 in E, E0.
      assert (Kr : Forall2 (fun b c => exists d, In d b /\ c = fst d) p r0).
      { clear -E. induction E as [|b c p r0 H _ IH]; constructor; auto. destruct b as [|d b]; [discriminate|]. injection H as <-. exists d. split; [now left|auto]. }
      assert (Kw : map toP r1 = map (fun b => sumR (map (fun c => toP (snd c)) b)) p).
      { clear -E0. induction E0 as [|b c p r1 H _ IH]; auto. cbn [map]. f_equal; auto. apply lse_sum in H. destruct H as (_ & H). rewrite H, map_map. reflexivity. }
      assert (Wr : Forall wf_spe r0).
      { apply Forall_forall. intros c Hc. destruct (ArithProofs.Forall2_in_r _ _ _ _ _ _ Kr Hc) as (b & Hb & d & Hd & ->). apply (sum_wf dlaw l); eauto. }
      destruct (mk_Sum_ok dlaw r0 r1 t Wr H') as (_ & Wt & _ & Vt & Dt); [now rewrite Kw|]. split; auto. split.
      + assert (Ne : exists b c, In b p /\ In c b).
        { destruct p as [|b p']; [exfalso; cbn in Tot; lra|]. destruct (Kb b (or_introl eq_refl)) as (Nb & _). destruct b as [|c b]; [tauto|]. exists (c :: b), c. split; now left. }
        destruct Ne as (b & _ & Hb & _). destruct (Forall2_in_l _ _ _ _ _ _ Kr Hb) as (c & Hc & d & Hd & ->). intros x. rewrite (Vt (fst d) x Hc). symmetry. apply (sum_vars dlaw l d W). now apply (Inp b).
      + intros f w. rewrite Dt, Law. clear -Kr Kw One. revert r1 Kw. induction Kr as [|b c p r0 (d & Hd & ->) _ IH]; intros [|q r1] Kw; try discriminate; auto. cbn [map] in Kw. injection Kw as Kq Kr1. cbn [combine map fst snd]. repeat change (sumR (?a :: ?l)) with (a + sumR l). rewrite (IH (fun b c Hb => One b c (or_intror Hb)) r1 Kr1). f_equal. rewrite (One b d) by (auto; now left). now rewrite Kq.
  Qed.

  (** ** Sharing of subtrees *)
  Definition entry_ok (k : spe) : Prop := wf_spe k /\ every (aenv envof) k.
  Definition same (s t : spe) : Prop := (forall f w, den s f w = den t f w) /\ forall x, vars s x <-> vars t x.
  Lemma same_refl : forall s, same s s.
  Proof. intros s. split; [reflexivity|tauto]. Qed.
  Lemma table_ok : forall s m k, entry_ok s -> Forall entry_ok m -> table_get hash s m = Some k -> entry_ok k /\ same k s.
  Proof.
    intros s m k Hs Hm H. unfold table_get in H. apply find_some in H. destruct H as (Hk & H). apply andb_true_iff in H. destruct H as (_ & H). rewrite Forall_forall in Hm. specialize (Hm k Hk). split; auto.
    apply (speqb_ok dlaw Ed envof); auto; try apply Hm; apply Hs.
  Qed.
  Lemma sum_same : forall l l', Forall2 (fun c c' => snd c = snd c' /\ entry_ok (fst c') /\ same (fst c) (fst c')) l l' -> entry_ok (SumSPE l) -> entry_ok (SumSPE l') /\ same (SumSPE l) (SumSPE l').
  Proof.
    intros l l' F (W & A). assert (Ws : map (fun c => toP (snd c)) l' = map (fun c => toP (snd c)) l) by (clear -F; induction F as [|c c' l l' H _ IH]; auto; cbn [map]; destruct H as (-> & _); now rewrite IH).
    split; [split|].
    - split; [|split].
      + apply all_forall. intros c' Hc'. destruct (ArithProofs.Forall2_in_r _ _ _ _ _ _ F Hc') as (c & _ & _ & K & _). apply K.
      + rewrite Ws. apply W.
      + intros c' d' Hc' Hd' x. destruct (ArithProofs.Forall2_in_r _ _ _ _ _ _ F Hc') as (c & Hc & _ & _ & (_ & K)). destruct (ArithProofs.Forall2_in_r _ _ _ _ _ _ F Hd') as (d & Hd & _ & _ & (_ & K')).
        rewrite <- K, <- K'. now apply W.
    - split; [exact Logic.I|]. apply all_forall. intros c' Hc'. destruct (ArithProofs.Forall2_in_r _ _ _ _ _ _ F Hc') as (c & _ & _ & K & _). apply K.
    - split.
      + intros f w. cbn [SpeSpec.den]. clear -F. induction F as [|c c' l l' H _ IH]; auto. cbn [map sumR fold_right]. unfold sumR in IH. rewrite IH. destruct H as (-> & _ & (-> & _)). reflexivity.
      + intros x. destruct F as [|c c' l l' H _]; [tauto|]. cbn [vars]. apply H.
  Qed.
  Lemma prod_same : forall l l', Forall2 (fun c c' => entry_ok c' /\ same c c') l l' -> entry_ok (ProductSPE l) -> entry_ok (ProductSPE l') /\ same (ProductSPE l) (ProductSPE l').
  Proof.
    intros l l' F (W & A). split; [split|].
    - destruct W as (Ne & _ & Ap). split; [|split].
      + destruct F; [tauto|discriminate].
      + apply all_forall. intros c' Hc'. destruct (ArithProofs.Forall2_in_r _ _ _ _ _ _ F Hc') as (c & _ & K & _). apply K.
      + clear -F Ap. induction F as [|c c' l l' (_ & _ & H) F IH]; [constructor|]. inversion Ap as [|? ? A1 A2]; subst. constructor; auto. rewrite Forall_forall in *. intros d' Hd'. destruct (ArithProofs.Forall2_in_r _ _ _ _ _ _ F Hd') as (d & Hd & _ & (_ & K)).
        intros x. rewrite <- H, <- K. now apply A1.
    - split; [exact Logic.I|]. apply all_forall. intros c' Hc'. destruct (ArithProofs.Forall2_in_r _ _ _ _ _ _ F Hc') as (c & _ & K & _). apply K.
    - split.
      + intros f w. change (den_prod l f w = den_prod l' f w). clear -F. revert f w. induction F as [|c c' l l' (_ & H & _) _ IH]; intros f w; auto. cbn [SpeSpec.den_prod]. rewrite H. f_equal. extensionality a. apply IH.
      + intros x. rewrite !(pvars_in _ x : vars (ProductSPE _) x <-> _). split.
        * intros (c & Hc & K). destruct (Forall2_in_l _ _ _ _ _ _ F Hc) as (c' & Hc' & _ & _ & E). exists c'. split; auto. now apply E.
        * intros (c' & Hc' & K). destruct (ArithProofs.Forall2_in_r _ _ _ _ _ _ F Hc') as (c & Hc & _ & _ & E). exists c. split; auto. now apply E.
  Qed.
  Theorem cache_ok : forall s m s' m', entry_ok s -> Forall entry_ok m -> cache_duplicate_subtrees hash s m = (s', m') ->
    entry_ok s' /\ same s s' /\ Forall entry_ok m'.
  Proof.
    assert (Hit : forall s m k, entry_ok s -> Forall entry_ok m -> table_get hash s m = Some k -> entry_ok k /\ same s k /\ Forall entry_ok m).
    { intros s m k Hs Hm T. destruct (table_ok s m k Hs Hm T) as (K1 & K2 & K3). split; auto. split; auto. split; [auto|]. intros x. now rewrite K3. }
    induction s using spe_ind'; intros m s' m' Hs Hm C; cbn [cache_duplicate_subtrees] in C.
    1-3: destruct (table_get hash _ m) eqn:T; injection C as <- <-; [now apply Hit|split; auto; split; [apply same_refl|now constructor]].
    - destruct (table_get hash _ m) eqn:T; [injection C as <- <-; now apply Hit|].
      match type of C with (let (_, _) := ?g l m in _) = _ => set (go := g) in C end.
      assert (G : forall k m l' m', (forall c, In c k -> In c l) -> Forall entry_ok m -> go k m = (l', m') -> Forall2 (fun c c' => snd c = snd c' /\ entry_ok (fst c') /\ same (fst c) (fst c')) k l' /\ Forall entry_ok m').
      { induction k as [|c k IH]; intros m0 l' m1 Sub Hm0 E.
        - injection E as <- <-. split; auto.
        - cbn [go] in E. destruct (cache_duplicate_subtrees hash (fst c) m0) as (c', m2) eqn:Ec. fold go in E. destruct (go k m2) as (k', m3) eqn:Ek. injection E as <- <-.
          assert (Hc : In c l) by (apply Sub; now left).
          destruct (H c Hc m0 c' m2) as (A1 & A2 & A3); auto; [split; [apply (sum_wf dlaw l); auto; apply Hs|apply (every_sum _ l); auto; apply Hs]|].
          destruct (IH m2 k' m3) as (B1 & B2); auto; try (intros; apply Sub; now right). }
      destruct (go l m) as (l', m2) eqn:El. injection C as <- <-. destruct (G l m l' m2) as (F & Fm); auto. destruct (sum_same l l' F Hs) as (A & B). split; auto.
    - destruct (table_get hash _ m) eqn:T; [injection C as <- <-; now apply Hit|].
      match type of C with (let (_, _) := ?g l m in _) = _ => set (go := g) in C end.
      assert (G : forall k m l' m', (forall c, In c k -> In c l) -> Forall entry_ok m -> go k m = (l', m') -> Forall2 (fun c c' => entry_ok c' /\ same c c') k l' /\ Forall entry_ok m').
      { induction k as [|c k IH]; intros m0 l' m1 Sub Hm0 E.
        - injection E as <- <-. split; auto.
        - cbn [go] in E. destruct (cache_duplicate_subtrees hash c m0) as (c', m2) eqn:Ec. fold go in E. destruct (go k m2) as (k', m3) eqn:Ek. injection E as <- <-.
          assert (Hc : In c l) by (apply Sub; now left).
          destruct (H c Hc m0 c' m2) as (A1 & A2 & A3); auto; [split; [apply (prod_wf dlaw l); auto; apply Hs|apply (every_prod _ l); auto; apply Hs]|].
          destruct (IH m2 k' m3) as (B1 & B2); auto; try (intros; apply Sub; now right). }
      destruct (go l m) as (l', m2) eqn:El. injection C as <- <-. destruct (G l m l' m2) as (F & Fm); auto. destruct (prod_same l l' F Hs) as (A & B). split; auto.
  Qed.
End BuildProofs.
