(** logpdf computes densities. *)
From Coq Require Import List Bool String Reals Lra Lia ZArith QArith Qreals FunctionalExtensionality Permutation PeanoNat.
From Verif Require Import Base Num Sets SetSpec SetIv SetProofs SetOr SetOps SetAlg SetBuilt
  Poly Trans TransSpec TransFacts PolyProofs InvProofs InvMain EvProofs ArithProofs
  Dnf DnfSpec DnfProofs DnfUnion Logs Spe SpeSpec SpeFacts SpeRect LeafProofs LeafEvents LeafCond SpeCons LeafGiven MemoProofs NormSorts LogprobProofs SpeEq SpeOps DensSpec.
Import ListNotations.
Local Open Scope R_scope.

(** ** Sums of dimensions and products of densities *)
Definition pmul (x y : nat * R) : nat * R := ((fst x + fst y)%nat, snd x * snd y).
Definition pprod (l : list (nat * R)) : nat * R := fold_right pmul (0%nat, 1) l.
Lemma pmul_comm : forall x y, pmul x y = pmul y x.
Proof. intros. unfold pmul. f_equal; [lia|ring]. Qed.
Lemma pmul_assoc : forall x y z, pmul x (pmul y z) = pmul (pmul x y) z.
Proof. intros. unfold pmul. cbn. f_equal; [lia|ring]. Qed.
Lemma pmul_one : forall x, pmul (0%nat, 1) x = x.
Proof. intros (d, p). unfold pmul. cbn. f_equal. ring. Qed.
Lemma pprod_app : forall l m, pprod (l ++ m) = pmul (pprod l) (pprod m).
Proof. induction l as [|x l IH]; intros m; cbn [app pprod fold_right]; [now rewrite pmul_one|]. fold (pprod (l ++ m)). rewrite IH. apply pmul_assoc. Qed.
Lemma pprod_perm : forall l m, Permutation l m -> pprod l = pprod m.
Proof.
  induction 1 as [|x l m P IH|x y l|l m k P1 IH1 P2 IH2]; auto; unfold pprod in *; cbn [fold_right]; [now rewrite IH| |congruence].
  rewrite !pmul_assoc. f_equal. apply pmul_comm.
Qed.
Lemma pprod_fst : forall l, fst (pprod l) = list_sum (map fst l).
Proof. induction l as [|x l IH]; auto. unfold pprod in *. cbn [fold_right pmul fst map]. rewrite IH. reflexivity. Qed.
Lemma pprod_snd : forall l, snd (pprod l) = fold_right Rmult 1 (map snd l).
Proof. induction l as [|x l IH]; auto. unfold pprod in *. cbn [fold_right pmul snd map]. now rewrite IH. Qed.
Lemma pprod_pair : forall l, (list_sum (map fst l), fold_right Rmult 1 (map snd l)) = pprod l.
Proof. intros. rewrite <- pprod_fst, <- pprod_snd. now destruct (pprod l). Qed.
Lemma pprod_ones : forall A (h : A -> nat * R) l, (forall k, In k l -> h k = (0%nat, 1)) -> pprod (map h l) = (0%nat, 1).
Proof. induction l as [|a l IH]; intros H; auto. cbn [map pprod fold_right]. rewrite (H a), pmul_one by now left. apply IH. intros; apply H; now right. Qed.
Lemma pprod_subset : forall (h : nat -> nat * R) ks m, NoDup ks -> NoDup m -> incl ks m -> (forall k, In k m -> ~ In k ks -> h k = (0%nat, 1)) ->
  pprod (map h m) = pprod (map h ks).
Proof.
  intros h ks m Nk Nm I H. set (rest := filter (fun k => negb (inb Nat.eqb k ks)) m).
  assert (P : Permutation m (ks ++ rest)).
  { apply NoDup_Permutation; auto.
    - apply nodup_app; auto; [now apply NoDup_filter|]. intros k Hk K. apply filter_In in K. destruct K as (_ & K). apply negb_true_iff in K. apply inb_nat in Hk. congruence.
    - intros k. rewrite in_app_iff. unfold rest. rewrite filter_In, negb_true_iff. split.
      + intros Hk. destruct (inb Nat.eqb k ks) eqn:E; [left; now apply inb_nat|auto].
      + intros [Hk|(Hk & _)]; auto. }
  rewrite (pprod_perm _ _ (Permutation_map h P)), map_app, pprod_app. rewrite (pprod_ones _ h rest); [rewrite pmul_comm; apply pmul_one|].
  intros k Hk. apply filter_In in Hk. destruct Hk as (Hk & E). apply H; auto. intros K. apply inb_nat in K. rewrite K in E. discriminate.
Qed.

(** ** The least dimension *)
Lemma least_none : forall l, least l = None -> forall q, In q l -> ~ 0 < snd q.
Proof.
  induction l as [|p l IH]; intros H q Hq; [destruct Hq|]. cbn [least] in H. destruct (dec (0 < snd p)); [discriminate|]. destruct Hq as [<-|Hq]; auto.
Qed.
Lemma least_some : forall l d, least l = Some d -> (exists q, In q l /\ 0 < snd q /\ fst q = d) /\ forall q, In q l -> 0 < snd q -> (d <= fst q)%nat.
Proof.
  induction l as [|p l IH]; intros d H; [discriminate|]. cbn [least] in H. destruct (dec (0 < snd p)) as [Hp|Hp].
  - injection H as <-. destruct (least l) as [m|] eqn:E.
    + destruct (IH m eq_refl) as ((q & Q1 & Q2 & Q3) & Q4). split.
      * destruct (Nat.min_spec (fst p) m) as [(_ & ->)|(_ & ->)]; [exists p; simpl; auto|exists q; simpl; auto].
      * intros r [<-|Hr] Pr; [lia|]. specialize (Q4 r Hr Pr). lia.
    + split; [exists p; simpl; auto|]. intros r [<-|Hr] Pr; [lia|]. destruct (least_none l E r Hr Pr).
  - destruct (IH d H) as ((q & Q1 & Q2) & Q4). split; [exists q; simpl; auto|]. intros r [<-|Hr] Pr; [tauto|auto].
Qed.

Section Logpdf.
  Context {N : numsys} {S : logsys} {D : distsys N S}.
  Context (dlaw : dist D -> (fval -> R) -> R) (dpdf : dist D -> R -> R) (ident : spe D -> nat).
  Context (pdf : pdf_ok (S:=S) dpdf).
  Notation spe := (spe D).
  Notation wf_spe := (wf_spe dlaw).
  Notation wf_leaf := (wf_leaf dlaw).
  Notation assignment := (assignment (N:=N)).
  Notation density := (density dlaw dpdf).
  Notation leaf_density := (leaf_density dlaw dpdf).
  Notation M := (M (N:=N) (D:=D)).
  Definition read (p : nat * lg S) : nat * R := (fst p, toP (snd p)).

  Lemma portion_inside : forall V (a : values), portion V a = inside V a.
  Proof. reflexivity. Qed.
  Lemma values_app : forall a b : assignment, values_of (a ++ b) = values_of a ++ values_of b.
  Proof. intros. apply map_app. Qed.
  Lemma leaf_env_base : forall s : spe, is_leaf s = true -> fst (leaf_env s) = base s.
  Proof. destruct s; intros; try discriminate; reflexivity. Qed.

  (** ** Leaves *)
  Lemma nom_point : forall ws x, NoDup (map fst ws) -> nom_law ws (ind (eq (FStr x))) = match lookup x ws with Some q => Q2R q | None => 0 end.
  Proof.
    unfold nom_law. induction ws as [|(y, q) ws IH]; intros x Nd; [reflexivity|]. cbn [map fst snd]. change (sumR (?a :: ?l)) with (a + sumR l). inversion Nd; subst.
    rewrite IH by auto. unfold lookup. fold (@lookup Q). cbn [fst]. destruct (String.eqb_spec x y) as [->|Ne].
    - assert (L : lookup y ws = None).
      { clear -H1. induction ws as [|(z, r) ws IH]; auto. cbn [lookup]. destruct (String.eqb_spec y z) as [->|]; [destruct H1; now left|]. apply IH. intro; apply H1; now right. }
      rewrite L, ind_true by auto. ring.
    - rewrite ind_false by congruence. ring.
  Qed.
  Lemma nom_number : forall ws r, nom_law ws (ind (eq (FNum r))) = 0.
  Proof.
    unfold nom_law. induction ws as [|(y, q) ws IH]; intros r; [reflexivity|]. cbn [map fst snd]. change (sumR (?a :: ?l)) with (a + sumR l). rewrite IH, ind_false by discriminate. ring.
  Qed.
  Lemma contains_in : forall a (i : interval N), wf_iv i -> (iv_contains (Fin a) i = true <-> in_iv i (FNum (toR a))).
  Proof. intros a i W. unfold in_iv, fm. change (iv_contains (Fin a) i = true <-> iv_mem (eR (Fin a)) i). rewrite iv_mem_pm. apply iv_contains_R. Qed.
  Lemma leaf_logpdf_val_ok : forall s v p, wf_leaf s -> finite_val (val_of v) -> leaf_logpdf_val s v = Ok p ->
    leaf_density s (val_of v) = (if leaf_atomic s then 0%nat else 1%nat, toP p).
  Proof.
    intros s v p W Fv H. destruct s as [disc x d supp cond env|x a env|x ws|l|l]; try contradiction; try discriminate.
    - destruct W as (W1 & W2 & W3 & W4 & W5). pose proof (d_law _ _ _ W3) as LB. cbn [leaf_logpdf_val] in H. destruct v as [y|y]; cbn [val_of].
      + destruct y as [|c|]; try destruct Fv. cbn [DensSpec.leaf_density leaf_atomic]. change (eR (Fin c)) with (@Fin R (toR c)) in *. cbv iota. destruct disc.
        * destruct (point_ok dlaw true d supp cond W1 (disc_int _ _ _ _ _ _ _ W2) W3 W4 c eq_refl) as (q & Eq & Hq). rewrite Eq in H. injection H as <-. now rewrite Hq.
        * unfold leaf_logpdf in H. destruct cond; cbn [negb] in H.
          -- destruct (iv_contains (Fin c) supp) eqn:Ec; cbn [negb] in H.
             ++ destruct (logZ_ok dlaw false d supp W1 (disc_int _ _ _ _ _ _ _ W2) W3) as (z & Ez & Hz). rewrite Ez in H. cbn [bind] in H. injection H as <-. rewrite lsub_ok, Hz by (rewrite Hz; exact W4).
                rewrite (proj1 pdf). rewrite ind_true by now apply contains_in. f_equal. unfold Rdiv. ring.
             ++ injection H as <-. rewrite lninf_ok, ind_false; [f_equal; unfold Rdiv; ring|]. rewrite <- contains_in by auto. congruence.
          -- injection H as <-. now rewrite (proj1 pdf).
      + injection H as <-. rewrite lninf_ok. cbn [DensSpec.leaf_density leaf_atomic taken]. destruct disc; auto. f_equal. apply (I_null dlaw true d supp cond W3 W4).
        apply (law_null_sub LB (fun v => ~ is_num v)); [apply (law_full LB), (d_num _ _ _ W3)|]. intros u <- (r & K). discriminate.
    - destruct W as (Nd & P & T). cbn [leaf_logpdf_val] in H. cbn [DensSpec.leaf_density leaf_atomic]. f_equal. destruct v as [y|y]; cbn [val_of taken].
      + injection H as <-. rewrite lninf_ok. destruct y as [|c|]; apply nom_number.
      + rewrite nom_point by auto. destruct (lookup y ws) as [q|] eqn:E; [|injection H as <-; now rewrite lninf_ok].
        destruct (Qle_bool q 0) eqn:Eq; [discriminate|]. injection H as <-. rewrite lofQ_ok; auto. apply Qnot_le_lt. intros K. apply Qle_bool_iff in K. congruence.
  Qed.
  Definition pdf_res (s : spe) (a : assignment) (r : nat * lg S) : Prop :=
    asked s (values_of a) /\ density s (values_of a) = read r.
  Lemma leaf_asg_ok : forall s a r, wf_leaf s -> finite_values (values_of a) -> leaf_logpdf_asg s a = Ok r -> pdf_res s a r.
  Proof.
    intros s a r W Fa H. unfold leaf_logpdf_asg in H. inv_bind H. inv_bind H. injection H as <-. unfold one_value in E. destruct a as [|(k, v) [|]]; try discriminate. inv_bind E. injection E as <-.
    unfold passert in E1. destruct (String.eqb_spec k (fst (leaf_env s))) as [->|]; [|discriminate]. pose proof (wf_leaf_leaf dlaw s W) as Lf. rewrite leaf_env_base by auto.
    inversion Fa as [|? ? Fv _]; subst. cbn [fst snd] in Fv. pose proof (leaf_logpdf_val_ok s v r1 W Fv E0) as K. unfold pdf_res, read. cbn [values_of map fst snd].
    split; [destruct s; try discriminate; eexists; reflexivity|]. rewrite <- K. now destruct s; try discriminate.
  Qed.

  (** ** Sums *)
  Lemma min_dim_least : forall ps, min_dim ps = least (map read ps).
  Proof.
    assert (F : forall qs m, fold_left (fun m (p : nat * lg S) => Nat.min m (fst p)) qs m = match fold_right (fun p o => Some (match o with Some k => Nat.min (fst p) k | None => fst p end)) None qs with Some k => Nat.min m k | None => m end).
    { induction qs as [|p qs IH]; intros m; auto. cbn [fold_left fold_right]. rewrite IH. destruct (fold_right _ None qs); lia. }
    assert (E : forall ps, least (map read ps) = fold_right (fun (p : nat * lg S) o => Some (match o with Some k => Nat.min (fst p) k | None => fst p end)) None (filter (fun p => negb (lisninf (snd p))) ps)).
    { induction ps as [|p ps IH]; auto. cbn [map least filter read fst snd]. pose proof (lisninf_ok S (snd p)) as K. pose proof (toP_nonneg S (snd p)). destruct (lisninf (snd p)); cbn [negb].
      - destruct (dec _) as [G|G]; [exfalso; destruct K as (K & _); specialize (K eq_refl); lra|exact IH].
      - destruct (dec _) as [G|G]; [cbn [fold_right]; now rewrite IH|]. exfalso. assert (toP (snd p) = 0) by lra. destruct K as (_ & K). specialize (K H0). discriminate. }
    intros ps. rewrite E. unfold min_dim. destruct (filter _ ps) as [|q qs]; auto. rewrite F. cbn [fold_right]. destruct (fold_right _ None qs); reflexivity.
  Qed.
  Lemma mix_zero : forall qs, least (map fst qs) = None -> mix_density qs = (0%nat, 0).
  Proof. intros qs H. unfold mix_density. now rewrite H. Qed.
  Lemma sum_logpdf_ok : forall ps (ws : list (lg S)) r, List.length ps = List.length ws -> sum_logpdf ps ws = Ok r ->
    mix_density (combine (map read ps) (map toP ws)) = read r.
  Proof.
    intros ps ws r Len H. unfold sum_logpdf in H. rewrite min_dim_least in H. unfold mix_density.
    assert (E : map fst (combine (map read ps) (map toP ws)) = map read ps).
    { clear H. revert ws Len. induction ps as [|p ps IH]; intros [|w ws] Len; try discriminate; auto. cbn. f_equal. apply IH. now injection Len. }
    rewrite E. destruct (least (map read ps)) as [d|] eqn:L; [|injection H as <-; unfold read; cbn [fst snd]; now rewrite lninf_ok].
    inv_bind H. injection H as <-. unfold read at 2. cbn [fst snd]. f_equal.
    set (qs := filter (fun q => Nat.eqb (fst (fst q)) d) (combine ps ws)) in *.
    assert (Q : filter (fun q => Nat.eqb (fst (fst q)) d) (combine (map read ps) (map toP ws)) = map (fun q => (read (fst q), toP (snd q))) qs).
    { clear. subst qs. revert ws. induction ps as [|p ps IH]; intros [|w ws]; auto. cbn [map combine filter fst read]. destruct (Nat.eqb (fst p) d); cbn [map fst snd]; [f_equal|]; apply IH. }
    rewrite Q, map_map. cbn [fst snd read]. clear Q; clearbody qs; destruct qs as [|q qs]; [cbn [map] in E0; rewrite lse_nil in E0; discriminate|].
    destruct (lse_ok S (map (fun q => ladd (snd q) (snd (fst q))) (q :: qs))) as (r1 & E1 & H1); [discriminate|]. rewrite E1 in E0. injection E0 as <-. rewrite H1, map_map.
    apply sumR_ext. intros x _. now rewrite ladd_ok.
  Qed.

  (** ** Products *)
  Section Split.
    Context (l : list spe) (Wl : wf_spe (ProductSPE l)).
    Definition syms : list (list string) := map (get_symbols (D:=D)) l.
    Definition here (i : nat) (p : string * val N) : bool := match child_of (fst p) 0 syms with Some j => Nat.eqb i j | None => false end.
    Definition group (i : nat) (a : assignment) : assignment := filter (here i) a.
    Definition groups_ok (g : list (nat * assignment)) (a : assignment) : Prop :=
      NoDup (map fst g) /\ (forall i b, In (i, b) g <-> b = group i a /\ b <> []) /\ forall p, In p a -> exists i, child_of (fst p) 0 syms = Some i.
    Lemma add_group_in : forall i p (g : list (nat * assignment)) j b, NoDup (map fst g) -> (In (j, b) (add_group i p g) <->
      (j <> i /\ In (j, b) g) \/ (j = i /\ ((exists b', In (i, b') g /\ b = b' ++ [p]) \/ (~ In i (map fst g) /\ b = [p])))).
    Proof.
      induction g as [|(k, c) g IH]; intros j b Nd; cbn [add_group].
      - cbn. split.
        + intros [E|[]]. injection E as <- <-. tauto.
        + intros [(_ & [])|(-> & [(b' & [] & _)|(_ & ->)])]. tauto.
      - cbn [map fst] in Nd. inversion Nd as [|? ? Nk Nd']; subst. destruct (Nat.eqb_spec i k) as [->|Ne].
        + cbn [In map fst]. split.
          * intros [E|H]; [injection E as <- <-; right; split; auto; left; exists c; auto|]. left. split; [|auto]. intros ->. apply Nk. apply in_map_iff. exists (k, b). auto.
          * intros [(Nj & [E|H])|(-> & [(b' & [E|H] & ->)|(H & _)])]; auto.
            -- injection E as <- <-. congruence.
            -- injection E as <-. auto.
            -- exfalso. apply Nk. apply in_map_iff. exists (k, b'). auto.
            -- destruct H. auto.
        + cbn [In map fst]. rewrite IH by auto. split.
          * intros [E|[(Nj & H)|(-> & [(b' & H & ->)|(H & ->)])]]; [injection E as <- <-; left; split; auto|auto| |].
            -- right. split; auto. left. exists b'. auto.
            -- right. split; auto. right. split; auto. intros [K|K]; [congruence|auto].
          * intros [(Nj & [E|H])|(-> & [(b' & [E|H] & ->)|(H & ->)])]; auto.
            -- injection E as <- <-. congruence.
            -- right. right. split; auto. left. eauto.
            -- right. right. split; auto. right. split; auto.
    Qed.
    Lemma add_group_keys : forall i p (g : list (nat * assignment)) k, In k (map fst (add_group i p g)) <-> k = i \/ In k (map fst g).
    Proof.
      induction g as [|(j, c) g IH]; intros k; cbn [add_group map fst In]; [intuition|]. destruct (Nat.eqb_spec i j) as [->|Ne]; cbn [map fst In]; [intuition|]. rewrite IH. intuition.
    Qed.
    Lemma add_group_nodup : forall i p (g : list (nat * assignment)), NoDup (map fst g) -> NoDup (map fst (add_group i p g)).
    Proof.
      induction g as [|(j, c) g IH]; intros Nd; cbn [add_group map fst]; [repeat constructor; auto|]. cbn [map fst] in Nd. inversion Nd; subst.
      destruct (Nat.eqb_spec i j) as [->|Ne]; cbn [map fst]; [auto|]. constructor; auto. rewrite add_group_keys. intros [->|K]; auto.
    Qed.
    Lemma split_from : forall a b g r, groups_ok g b ->
      foldM (fun g p => match child_of (fst p) 0 syms with Some i => Ok (add_group i p g) | None => Raise KeyError end) a g = Ok r -> groups_ok r (b ++ a).
    Proof.
      induction a as [|p a IH]; intros b g r G H; cbn [foldM] in H; [injection H as <-; now rewrite app_nil_r|].
      inv_bind H. destruct (child_of (fst p) 0 syms) as [i|] eqn:Ei; [|discriminate]. injection E as <-. replace (b ++ p :: a) with ((b ++ [p]) ++ a) by now rewrite <- app_assoc.
      apply (IH _ (add_group i p g)); auto. destruct G as (G1 & G2 & G3). split; [now apply add_group_nodup|]. split.
      - intros j c. rewrite add_group_in by auto. unfold group. rewrite filter_app. cbn [filter]. unfold here at 2. rewrite Ei. fold (group j b).
        destruct (Nat.eqb_spec j i) as [->|Nj].
        + split.
          * intros [(K & _)|(_ & [(b' & H1 & ->)|(H1 & ->)])]; [tauto| |].
            -- apply G2 in H1. destruct H1 as (-> & _). split; auto. now destruct (group i b).
            -- split; [|discriminate]. destruct (group i b) as [|q c'] eqn:Eg; auto. exfalso. apply H1. apply in_map_iff. exists (i, group i b). split; auto. apply G2. rewrite Eg. split; auto; discriminate.
          * intros (-> & _). right. split; auto. destruct (group i b) as [|q c'] eqn:Eg.
            -- right. split; auto. intros K. apply in_map_iff in K. destruct K as ((k, c) & E1 & K). cbn in E1. subst k. apply G2 in K. destruct K as (-> & K). congruence.
            -- left. exists (group i b). rewrite Eg. split; auto. apply G2. rewrite Eg. split; auto; discriminate.
        + rewrite app_nil_r. rewrite G2. split; [intros [(_ & K)|(K & _)]; [exact K|tauto]|]. intros K. left. auto.
      - intros q Hq. apply in_app_iff in Hq. destruct Hq as [Hq|[<-|[]]]; eauto.
    Qed.
    Lemma split_ok : forall a g, split_assignment syms a = Ok g -> groups_ok g a.
    Proof.
      intros a g H. apply (split_from a [] []); auto. split; [constructor|]. split; [|intros p []]. intros i b. split; [intros []|]. intros (-> & K). destruct K. reflexivity.
    Qed.
    Lemma apart_nth : forall (m : list spe) i j c d x, ForallOrdPairs (apart (D:=D)) m -> nth_error m i = Some c -> nth_error m j = Some d -> vars c x -> vars d x -> i = j.
    Proof.
      clear. induction m as [|e m IH]; intros i j c d x A Hi Hj Vc Vd; [destruct i; discriminate|]. inversion A as [|? ? A1 A2]; subst. rewrite Forall_forall in A1.
      destruct i as [|i], j as [|j]; cbn [nth_error] in *; auto.
      - injection Hi as <-. exfalso. apply (A1 d (nth_error_In _ _ Hj) x); auto.
      - injection Hj as <-. exfalso. apply (A1 c (nth_error_In _ _ Hi) x); auto.
      - f_equal. eapply IH; eauto.
    Qed.
    Lemma child_vars : forall x i c, nth_error l i = Some c -> (child_of x 0 syms = Some i <-> vars c x /\ exists j, child_of x 0 syms = Some j).
    Proof.
      intros x i c Hi. split.
      - intros H. split; [|eauto]. destruct (child_of_ok dlaw l x 0 i H) as (_ & d & Hd & V). rewrite Nat.sub_0_r in Hd. congruence.
      - intros (V & j & H). destruct (child_of_ok dlaw l x 0 j H) as (_ & d & Hd & Vd). rewrite Nat.sub_0_r in Hd. rewrite H. f_equal. destruct Wl as (_ & _ & A). now apply (apart_nth l j i d c x).
    Qed.
    Lemma group_portion : forall a i c, (forall p, In p a -> exists i, child_of (fst p) 0 syms = Some i) -> nth_error l i = Some c -> values_of (group i a) = portion (vars c) (values_of a).
    Proof.
      intros a i c K Hi. unfold group, portion, values_of. induction a as [|p a IH]; auto. cbn [map filter fst].
      assert (E : here i p = if dec (vars c (fst p)) then true else false).
      { unfold here. destruct (K p) as (j & Hj); [now left|]. rewrite Hj. pose proof (child_vars (fst p) i c Hi) as Q. rewrite Hj in Q.
        destruct (Nat.eqb_spec i j) as [->|Ne], (dec (vars c (fst p))) as [V|V]; auto; exfalso.
        - apply V. now apply Q.
        - apply Ne. assert (Some j = Some i) by (apply Q; split; eauto). congruence. }
      rewrite E. destruct (dec (vars c (fst p))); cbn [map]; [f_equal|]; apply IH; intros; apply K; now right.
    Qed.
  End Split.
  Lemma nth_map_seq : forall A (l : list A) B (f : A -> B) (e : B), map (fun i => match nth_error l i with Some a => f a | None => e end) (seq 0 (List.length l)) = map f l.
  Proof.
    intros A l B f e. assert (K : forall k m, map (fun i => match nth_error m (i - k) with Some a => f a | None => e end) (seq k (List.length m)) = map f m).
    { clear. intros k m. revert k. induction m as [|a m IH]; intros k; auto. cbn [List.length seq map]. rewrite Nat.sub_diag. cbn [nth_error]. f_equal. rewrite <- (IH (Datatypes.S k)). apply map_ext_in. intros i Hi. apply in_seq in Hi.
      replace (i - k)%nat with (Datatypes.S (i - Datatypes.S k)) by lia. reflexivity. }
    rewrite <- (K 0%nat l). apply map_ext. intro i. now rewrite Nat.sub_0_r.
  Qed.
  Lemma fold_add_pdf : forall ps p, read (fold_left add_pdf ps p) = pmul (read p) (pprod (map read ps)).
  Proof.
    induction ps as [|q ps IH]; intros p; cbn [fold_left map pprod fold_right]; [rewrite pmul_comm; symmetry; apply pmul_one|]. rewrite IH. fold (pprod (map read ps)). rewrite pmul_assoc. f_equal.
    unfold read, add_pdf, pmul. cbn [fst snd]. now rewrite ladd_ok.
  Qed.

  (** ** The memo table *)
  Lemma key_values : forall a b : assignment, list_eqb (fun a b => String.eqb (fst a) (fst b) && val_eqb (snd a) (snd b)) a b = true -> values_of a = values_of b.
  Proof.
    induction a as [|(x, v) a IH]; intros [|(y, u) b] H; try discriminate; auto. cbn [list_eqb fst snd] in H. apply andb_true_iff in H. destruct H as (H & H2). apply andb_true_iff in H. destruct H as (H0 & H1).
    apply String.eqb_eq in H0. subst y. cbn [values_of map fst snd]. fold (values_of a). fold (values_of b). rewrite (IH b H2).
    assert (E : val_of v = val_of u); [|now rewrite E].
    destruct v, u; cbn [val_eqb] in H1; try discriminate; unfold val_of; [apply eeqb_eR in H1; now rewrite H1|apply String.eqb_eq in H1; now rewrite H1].
  Qed.
  Context (U : spe -> Prop) (Uc : closed ident U).
  Definition pdf_entry (e : (nat * assignment) * (nat * lg S)) : Prop := forall s, U s -> ident s = fst (fst e) -> pdf_res s (snd (fst e)) (snd e).
  Context (V : memo (D:=D) -> Prop).
  Context (Vget : forall m, V m -> Forall pdf_entry (m_logpdf m)).
  Context (Vset : forall m e, V m -> pdf_entry e -> V (mkMemo (m_logprob m) (m_condition m) (e :: m_logpdf m) (m_constrain m))).

  Lemma memo_logpdf_ok : forall s a x, U s -> sat V x (pdf_res s a) -> sat V (memo_logpdf ident s a x) (pdf_res s a).
  Proof.
    intros s a x Us H t Ht. unfold memo_logpdf. destruct (find_key asg_key_eqb (ident s, a) (m_logpdf t)) as [r|] eqn:E.
    - split; [exact Ht|]. cbn [fst]. intros b Eb. injection Eb as <-. apply find_key_in in E. destruct E as ((k, g) & Ek & Hin). unfold asg_key_eqb in Ek. cbn [fst snd] in Ek.
      apply andb_true_iff in Ek. destruct Ek as (E1 & E2). apply Nat.eqb_eq in E1. pose proof (Vget t Ht) as G. rewrite Forall_forall in G. specialize (G _ Hin s Us (eq_sym E1)). cbn [fst snd] in G.
      unfold pdf_res in *. now rewrite <- (key_values _ _ E2).
    - destruct (H t Ht) as (H1 & H2). destruct (x t) as [[r|e] t']; cbn [fst snd] in *.
      + split; [|intros b Eb; apply H2; exact Eb]. apply Vset; auto. intros s' Us' Ei. cbn [fst snd] in *. destruct Uc as (_ & _ & Inj). rewrite (Inj s' s Us' Us Ei). now apply H2.
      + split; auto; discriminate.
  Qed.
  Theorem logpdf_mem_ok : forall s a, U s -> wf_spe s -> finite_values (values_of a) -> sat V (logpdf_mem ident s a) (pdf_res s a).
  Proof.
    induction s using spe_ind'; intros a' Us W Fa; cbn [logpdf_mem]; apply memo_logpdf_ok; auto; try (apply sat_lift; intros r Hr; now apply leaf_asg_ok).
    - apply sat_bind with (P := Forall2 (fun c r => pdf_res (fst c) a' r) l).
      + apply sat_mmap. intros c Hc. apply H; auto; [destruct Uc as (K & _); eauto|]. eapply sum_wf; eauto.
      + intros ps F. apply sat_lift. intros r Hr. pose proof (Forall2_len _ _ _ _ _ F) as Len.
        apply sum_logpdf_ok in Hr; [|now rewrite map_length]. split.
        * cbn [asked]. apply All_intro. intros c Hc. destruct (Forall2_in_l _ _ _ _ _ _ F Hc) as (q & _ & K & _). exact K.
        * cbn [DensSpec.density]. rewrite <- Hr. f_equal. clear -F. induction F as [|c r l ps (_ & E) F IH]; auto. cbn [map combine]. rewrite E. f_equal. exact IH.
    - unfold product_logpdf. apply sat_bind with (P := fun g => groups_ok l g a').
      + apply sat_lift. intros g Hg. apply split_ok. rewrite map_map in Hg. exact Hg.
      + intros g (G1 & G2 & G3).
        assert (Fin' : forall i b, In (i, b) g -> finite_values (values_of b)).
        { intros i b Hb. apply G2 in Hb. destruct Hb as (-> & _). apply Forall_forall. intros p Hp. unfold values_of in Hp. apply in_map_iff in Hp. destruct Hp as (q & <- & Hq). apply filter_In in Hq.
          unfold finite_values in Fa. rewrite Forall_forall in Fa. apply Fa. unfold values_of. apply in_map_iff. exists q. split; auto. apply Hq. }
        apply sat_bind with (P := Forall2 (fun q r => exists c, nth_error l (fst q) = Some c /\ pdf_res c (snd q) r) g).
        * apply sat_mmap. intros (i, b) Hb. cbn [fst snd]. rewrite nth_error_map. destruct (nth_error l i) as [c|] eqn:Ec; cbn [option_map].
          -- cbn [snd]. apply nth_error_In in Ec as Hc. eapply sat_weaken; [apply H; auto; [destruct Uc as (_ & K & _); eauto|eapply prod_wf; eauto|eauto]|]. intros r Hr. eauto.
          -- apply sat_lift. discriminate.
        * intros ps F. destruct ps as [|p ps]; [apply sat_lift; discriminate|]. apply sat_ret. rename a' into a.
          assert (Dom : forall q, In q a -> exists i, child_of (fst q) 0 (syms l) = Some i) by exact G3.
          split.
          -- cbn [asked]. split.
             ++ intros q Hq. unfold values_of in Hq. apply in_map_iff in Hq. destruct Hq as (q' & <- & Hq). cbn [fst]. destruct (Dom q' Hq) as (i & Hi). destruct (child_of_ok dlaw l _ 0 i Hi) as (_ & d & Hd & Vd).
                apply pvars_in. exists d. split; auto. eapply nth_error_In; eauto.
             ++ apply All_intro. intros c Hc. apply In_nth_error in Hc. destruct Hc as (i & Hi). rewrite <- (group_portion l W a i c Dom Hi). destruct (group l i a) as [|q b] eqn:Eg; [now left|]. right. rewrite <- Eg.
                assert (Hg : In (i, group l i a) g) by (apply G2; split; [reflexivity|rewrite Eg; discriminate]).
                destruct (Forall2_in_l _ _ _ _ _ _ F Hg) as (r & _ & c' & Hc' & K & _). cbn [fst snd] in *. rewrite Hi in Hc'. injection Hc' as <-. exact K.
          -- rewrite fold_add_pdf. change (pmul (read p) (pprod (map read ps))) with (pprod (map read (p :: ps))). cbn [DensSpec.density]. rewrite pprod_pair.
             set (h := fun i => match nth_error l i with Some c => match portion (vars c) (values_of a) with [] => (0%nat, 1) | q :: b => density c (q :: b) end | None => (0%nat, 1) end).
             rewrite <- (nth_map_seq _ l _ (fun c => match portion (vars c) (values_of a) with [] => (0%nat, 1) | q :: b => density c (q :: b) end) (0%nat, 1)).
             fold h. rewrite (pprod_subset h (map fst g)); auto using seq_NoDup.
             ++ f_equal. clear -F G2 Dom W. assert (G2' : forall i b, In (i, b) g -> b = group l i a /\ b <> []) by (intros; now apply G2). clear G2. revert F; generalize (p :: ps); clear p ps; intros qs F; induction F as [|(i, b) r g qs (c & Hc & _ & K) F IH]; auto. cbn [map fst snd] in *. f_equal.
                ** destruct (G2' i b) as (E1 & E2); [now left|]. unfold h. rewrite Hc, <- (group_portion l W a i c Dom Hc), <- E1, <- K. destruct b; [tauto|reflexivity].
                ** apply IH. intros; apply G2'; now right.
             ++ intros i Hi. apply in_map_iff in Hi. destruct Hi as ((i', b) & <- & Hi). cbn [fst]. destruct (Forall2_in_l _ _ _ _ _ _ F Hi) as (r & _ & c & Hc & _). cbn [fst] in Hc. apply in_seq. split; [lia|]. cbn. apply nth_error_Some. congruence.
             ++ intros i Hi Ni. unfold h. destruct (nth_error l i) as [c|] eqn:Ec; auto. rewrite <- (group_portion l W a i c Dom Ec). destruct (group l i a) as [|q b] eqn:Eg; auto.
                exfalso. apply Ni. apply in_map_iff. exists (i, group l i a). split; auto. apply G2. rewrite Eg. split; auto; discriminate.
  Qed.
End Logpdf.
