(** Evaluating transforms and events at given values (C50). *)
From Coq Require Import List Bool String Reals Lra Lia.
From Verif Require Import Base Num Sets SetSpec SetProofs Trans TransSpec TransFacts Sample SampleSpec InvMain SampleSim EvalSpec.
Import ListNotations.
Local Open Scope R_scope.

Section Prop52.
  Context {N : numsys}.
  Notation tr := (tr N).
  Lemma num_inv : forall v x, fval_of v = Some (FNum x) -> v = SNum x.
  Proof. intros [y|s|o] x H; cbn in H; congruence. Qed.
  Lemma str_inv : forall v x, fval_of v = Some (FStr x) -> v = SStr x.
  Proof. intros [y|s|o] x H; cbn in H; congruence. Qed.
  Lemma records_sub : forall m w xs ys, records m w ys -> incl xs ys -> records m w xs.
  Proof. intros m w xs ys H I x Hx. auto. Qed.
  (** a transform returns its value wherever it has one *)
  Theorem C50_value : forall (t : tr) m w u, good t -> realv t -> smooth t -> records m w (symbols t) ->
    teval t w = Some u -> exists v, evaluate t m = Ok v /\ fval_of v = Some u.
  Proof. intros t m w u G R S Hm H. exact (evaluate_ok t m w u G R S Hm H). Qed.
  Lemma in_domain_inv : forall f v x, in_domain f v = Ok x -> v = SNum x /\ f x = true.
  Proof. intros f [y|s|o] x H; cbn in H; try discriminate. destruct (f y) eqn:E; [|discriminate]. injection H as <-. auto. Qed.
  (** what it returns is its value *)
  Theorem C50_value_sound : forall (t : tr) m w v, good t -> realv t -> smooth t -> records m w (symbols t) -> apt t w ->
    evaluate t m = Ok v -> exists u, teval t w = Some u /\ fval_of v = Some u.
  Proof.
    induction t using tr_ind'; intros m w v0 G Rv Sm Hm Ap H0; cbn [evaluate teval good smooth symbols apt] in *; try contradiction.
    - destruct (Hm x) as (v' & E & F); [now left|]. rewrite E in H0. injection H0 as ->. eauto.
    - destruct G as (G & G'). inv_bind H0. inv_bind H0. injection H0 as <-. apply in_domain_inv in E0. destruct E0 as (-> & P). destruct (IHt m w _ G G' Sm Hm Ap E) as (u & Eu & Fu). cbn in Fu. injection Fu as <-. rewrite Eu. cbn.
      unfold nonnegative, f_root in *. destruct (Rlt_dec r0 0); [discriminate|]. destruct (Req_EM_T r0 0); eauto.
    - destruct G as (G & G' & _). inv_bind H0. inv_bind H0. injection H0 as <-. apply in_domain_inv in E0. destruct E0 as (-> & P). destruct (IHt m w _ G G' Sm Hm Ap E) as (u & Eu & Fu). cbn in Fu. injection Fu as <-. rewrite Eu. cbn. eauto.
    - destruct G as (G & G'). inv_bind H0. inv_bind H0. injection H0 as <-. apply in_domain_inv in E0. destruct E0 as (-> & P). destruct (IHt m w _ G G' Sm Hm Ap E) as (u & Eu & Fu). cbn in Fu. injection Fu as <-. rewrite Eu. cbn. eexists. split; [reflexivity|]. cbn. f_equal. f_equal.
      unfold Rabs. destruct (Rlt_dec 0 r0), (Rcase_abs r0); lra.
    - destruct G as (G & G'). inv_bind H0. inv_bind H0. injection H0 as <-. apply in_domain_inv in E0. destruct E0 as (-> & P). destruct (IHt m w _ G G' Sm Hm Ap E) as (u & Eu & Fu). cbn in Fu. injection Fu as <-. rewrite Eu. cbn.
      unfold nonzero, f_recip in *. destruct (Req_EM_T r0 0); [discriminate|]. eauto.
    - destruct G as (G & G'). inv_bind H0. inv_bind H0. injection H0 as <-. apply in_domain_inv in E0. destruct E0 as (-> & P). destruct (IHt m w _ G G' Sm Hm Ap E) as (u & Eu & Fu). cbn in Fu. injection Fu as <-. rewrite Eu. cbn. eauto.
    - destruct Ap as (Ap & Ak). destruct k; try (cbn in Rv; contradiction).
      + destruct G as (G & G' & _ & i & ->). inv_bind H0. inv_bind H0. injection H0 as <-. destruct (IHt m w _ G G' Sm Hm Ap E) as (u & Eu & Fu). rewrite Eu in Ak |- *. destruct u as [x|x]; [|discriminate].
        apply num_inv in Fu. subst r. cbn in E0. injection E0 as <-. unfold truth, fm, mem, inj, bmem. destruct (dec (iv_mem (Fin x) i)); eexists; split; reflexivity.
      + destruct G as (G & G' & _ & Gs). inv_bind H0. inv_bind H0. injection H0 as <-. destruct (IHt m w _ G G' Sm Hm Ap E) as (u & Eu & Fu). rewrite Eu in Ak |- *. destruct u as [x|x]; [|discriminate].
        apply num_inv in Fu. subst r. destruct Gs as [->|(vs & ->)]; cbn in E0; injection E0 as <-.
        * unfold truth. destruct (dec (fm (FNum x) PEmpty)) as [K|]; [destruct K|]. eexists; split; reflexivity.
        * unfold truth, fm, mem, inj, bmem. destruct (dec (exists y, In y vs /\ eR y = Fin x)); eexists; split; reflexivity.
  Qed.

  (** ** Events *)
  Definition bval (b : bool) : option fval := if b then one else zero.
  Lemma truthy_truth : forall b, truthy_v (truth_v b) = b.
  Proof. intros []; cbn; unfold nonzero; destruct (Req_EM_T _ 0); auto; lra. Qed.
  Lemma kor_bools : forall bs, kor (map bval bs) = bval (existsb (fun b => b) bs).
  Proof.
    intros bs. destruct (existsb (fun b => b) bs) eqn:E.
    - apply kor_one. apply existsb_exists in E. destruct E as (b & Hb & Eb). apply in_map_iff. exists b. subst b. auto.
    - apply kor_zero. intros o Ho. apply in_map_iff in Ho. destruct Ho as (b & <- & Hb). destruct b; auto. assert (existsb (fun b => b) bs = true) by (apply existsb_exists; eauto). congruence.
  Qed.
  Lemma kand_bools : forall bs, kand (map bval bs) = bval (forallb (fun b => b) bs).
  Proof.
    intros bs. destruct (forallb (fun b => b) bs) eqn:E.
    - apply kand_one. rewrite forallb_forall in E. intros o Ho. apply in_map_iff in Ho. destruct Ho as (b & <- & Hb). now rewrite (E b Hb).
    - apply kand_zero. apply in_map_iff. exists false. split; auto. destruct (in_dec Bool.bool_dec false bs) as [|K]; auto. assert (forallb (fun b => b) bs = true); [|congruence]. apply forallb_forall. intros [] Hb; tauto.
  Qed.
  Lemma existsb_truth : forall bs, existsb truthy_v (map truth_v bs) = existsb (fun b => b) bs.
  Proof. induction bs as [|b bs IH]; cbn [map existsb forallb]; auto. now rewrite truthy_truth, IH. Qed.
  Lemma forallb_truth : forall bs, forallb truthy_v (map truth_v bs) = forallb (fun b => b) bs.
  Proof. induction bs as [|b bs IH]; cbn [map existsb forallb]; auto. now rewrite truthy_truth, IH. Qed.
  Lemma contains_str : forall x s, s = PEmpty \/ nominal_set s -> contains_v (N:=N) (SStr x) s = Ok (if dec (fm (FStr x) s) then true else false).
  Proof.
    intros x s [->|H].
    - cbn. destruct (dec _) as [K|]; [destruct K|reflexivity].
    - destruct s as [|[vs f|vs|i]|l]; try contradiction. cbn [contains_v bcontains_v]. f_equal. unfold nom_contains, fm, mem, inj, bmem. assert (K : inb String.eqb x vs = true <-> In x vs) by (rewrite inb_true; split; [intros (y & Hy & E); apply String.eqb_eq in E; now subst|intros Hy; exists x; split; auto; apply String.eqb_refl]). destruct (dec _) as [D|D], (truthy f), (inb String.eqb x vs); cbn; auto; exfalso; intuition discriminate.
  Qed.
  Lemma contains_num : forall x s, (exists i, s = PB (BInt i)) \/ s = PEmpty \/ (exists vs, s = PB (BReal vs)) -> contains_v (N:=N) (SNum x) s = Ok (if dec (fm (FNum x) s) then true else false).
  Proof.
    intros x s [(i & ->)|[->|(vs & ->)]]; cbn; try reflexivity. destruct (dec _) as [K|]; [destruct K|reflexivity].
  Qed.
  Lemma truth_bval : forall P, truth P = bval (if dec P then true else false).
  Proof. intros P. unfold truth. now destruct (dec P). Qed.
  Lemma parts : forall m w (l : list tr), Forall (fun e => forall m w, gev e -> smooth e -> records m w (symbols e) -> defined e w -> exists b, evaluate e m = Ok (truth_v b) /\ teval e w = bval b) l ->
    All (fun e => good e /\ is_event e = true) l -> All smooth l -> All (fun e => defined e w) l -> records m w (sunions (map symbols l)) ->
    exists bs, mapM (fun e => evaluate e m) l = Ok (map truth_v bs) /\ map (fun e => teval e w) l = map bval bs.
  Proof.
    intros m w l F G Sm Df Hm. assert (I : forall e, In e l -> incl (symbols e) (sunions (map symbols l))). { intros e He x Hx. apply in_sunions. exists (symbols e). split; auto. now apply in_map. }
    revert Hm I. generalize (sunions (map symbols l)) as ys. intros ys Hm. induction F as [|e l H F IH]; intros I; [exists []; auto|]. destruct G as (Ge & G). destruct Sm as (Se & Sm). destruct Df as (De & Df).
    destruct (H m w Ge Se (records_sub m w _ ys Hm (I e (or_introl eq_refl))) De) as (b & E1 & E2). destruct (IH G Sm Df) as (bs & B1 & B2); [intros e' He; apply I; now right|].
    exists (b :: bs). cbn [mapM map]. rewrite E1, B1, E2, B2. split; reflexivity.
  Qed.
  (** an event of which every part has a value evaluates to True if it is true and to False if it is false *)
  Theorem C50_event : forall (e : tr) m w, gev e -> smooth e -> records m w (symbols e) -> defined e w ->
    exists b, evaluate e m = Ok (truth_v b) /\ teval e w = bval b.
  Proof.
    induction e using tr_ind'; intros m w (G & Ev) Sm Hm Df; try discriminate.
    - cbn [defined teval] in Df |- *. cbn [evaluate good smooth symbols] in *. destruct k.
      + destruct G as (G & Gr & _ & Gs). destruct (teval e w) as [u|] eqn:E; [|tauto]. destruct (C50_value e m w u G Gr Sm Hm E) as (v' & Ev' & Fv). rewrite Ev'. cbn [bind].
        destruct u as [x|x]; [|tauto]. apply num_inv in Fv. subst v'. rewrite contains_num by auto. cbn [bind]. eexists. split; [reflexivity|]. apply truth_bval.
      + destruct G as (G & Gr & _ & Gs). destruct (teval e w) as [u|] eqn:E; [|tauto]. destruct (C50_value e m w u G Gr Sm Hm E) as (v' & Ev' & Fv). rewrite Ev'. cbn [bind].
        destruct u as [x|x]; [|tauto]. apply num_inv in Fv. subst v'. rewrite contains_num by auto. cbn [bind]. eexists. split; [reflexivity|]. apply truth_bval.
      + destruct G as (G & Gr & _ & Gs). destruct (teval e w) as [u|] eqn:E; [|tauto]. destruct (C50_value e m w u G Gr Sm Hm E) as (v' & Ev' & Fv). rewrite Ev'. cbn [bind].
        destruct u as [x|x]; [tauto|]. apply str_inv in Fv. subst v'. rewrite contains_str by auto. cbn [bind]. eexists. split; [reflexivity|]. apply truth_bval.
    - destruct G as (_ & G). destruct (parts m w l H G Sm Df Hm) as (bs & E1 & E2). cbn [evaluate teval]. rewrite E1. cbn [bind]. rewrite E2, existsb_truth, kor_bools. eauto.
    - destruct G as (_ & G). destruct (parts m w l H G Sm Df Hm) as (bs & E1 & E2). cbn [evaluate teval]. rewrite E1. cbn [bind]. rewrite E2, forallb_truth, kand_bools. eauto.
  Qed.
  Corollary C50_holds : forall (e : tr) m w v, gev e -> smooth e -> records m w (symbols e) -> defined e w -> evaluate e m = Ok v -> (truthy_v v = true <-> holds e w).
  Proof.
    intros e m w v G Sm Hm Df H. destruct (C50_event e m w G Sm Hm Df) as (b & E & T). rewrite E in H. injection H as <-. rewrite truthy_truth. unfold holds. rewrite T. destruct b; cbn; split; auto; try discriminate. intros K. injection K. lra.
  Qed.
  (** whatever evaluate returns is right, provided numbers are compared with numbers and strings with strings *)
  Theorem C50_returns_defined : forall (e : tr) m w v, gev e -> smooth e -> records m w (symbols e) -> apt e w -> evaluate e m = Ok v -> defined e w.
  Proof.
    induction e using tr_ind'; intros m w v0 (G & Ev) Sm Hm Ap H0; try discriminate.
    - cbn [defined teval evaluate good smooth symbols apt] in *. destruct Ap as (Ap & Ak). inv_bind H0.
      assert (Gr : good e /\ realv e) by (destruct k; tauto). destruct (C50_value_sound e m w r (proj1 Gr) (proj2 Gr) Sm Hm Ap E) as (u & Eu & _). rewrite Eu in *. destruct u; destruct k; unfold truth; try (destruct (dec _)); try discriminate; try congruence.
    - cbn [evaluate defined apt smooth symbols] in *. inv_bind H0. clear H0. destruct G as (_ & G).
      assert (I : forall e, In e l -> incl (symbols e) (sunions (map symbols l))). { intros e He x Hx. apply in_sunions. exists (symbols e). split; auto. now apply in_map. }
      revert Hm I. generalize (sunions (map symbols l)) as ys. intros ys Hm I. clear Ev. revert r E. induction H as [|e l He F IH]; intros r E; [exact Logic.I|]. cbn [mapM] in E. inv_bind E. inv_bind E. destruct G as (Ge & G), Sm as (Se & Sm), Ap as (Ae & Ap). split.
      + apply (He m w r0); auto. apply (records_sub m w _ ys); auto. apply I. now left.
      + eapply IH; eauto. intros e' He'. apply I. now right.
    - cbn [evaluate defined apt smooth symbols] in *. inv_bind H0. clear H0. destruct G as (_ & G).
      assert (I : forall e, In e l -> incl (symbols e) (sunions (map symbols l))). { intros e He x Hx. apply in_sunions. exists (symbols e). split; auto. now apply in_map. }
      revert Hm I. generalize (sunions (map symbols l)) as ys. intros ys Hm I. clear Ev. revert r E. induction H as [|e l He F IH]; intros r E; [exact Logic.I|]. cbn [mapM] in E. inv_bind E. inv_bind E. destruct G as (Ge & G), Sm as (Se & Sm), Ap as (Ae & Ap). split.
      + apply (He m w r0); auto. apply (records_sub m w _ ys); auto. apply I. now left.
      + eapply IH; eauto. intros e' He'. apply I. now right.
  Qed.
  Corollary C50_sound : forall (e : tr) m w v, gev e -> smooth e -> records m w (symbols e) -> apt e w -> evaluate e m = Ok v -> (truthy_v v = true <-> holds e w).
  Proof. intros e m w v G Sm Hm Ap H. apply (C50_holds e m w v); auto. now apply (C50_returns_defined e m w v). Qed.
End Prop52.
