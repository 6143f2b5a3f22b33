(** transform adds one variable that is a function of the old ones. *)
From Coq Require Import List Bool String Reals Lra Lia ZArith QArith Qreals FunctionalExtensionality Permutation.
From Verif Require Import Base Num Sets SetSpec SetIv SetProofs SetOr SetOps SetAlg SetBuilt
  Poly Trans TransSpec TransFacts PolyProofs InvProofs InvMain EvProofs ArithProofs
  Dnf DnfSpec DnfProofs DnfUnion Logs Spe SpeSpec SpeFacts SpeRect LeafProofs LeafEvents LeafCond SpeCons LeafGiven SpeEq SimplifyProofs CondTypes SpeOps OpsProofs PropSpe.
Import ListNotations.
Local Open Scope R_scope.

Section TransformProofs.
  Context {N : numsys} {S : logsys} {D : distsys N S} (io : iterorder N) (po : polyoracle N) (fuel : nat).
  Context (dlaw : dist D -> (fval -> R) -> R).
  Notation spe := (spe D).
  Notation tr := (tr N).
  Notation den := (den dlaw).
  Notation den_prod := (den_prod den).
  Notation wf_spe := (wf_spe dlaw).
  Notation wf_leaf := (wf_leaf dlaw).
  Notation surely := (surely dlaw).

  Definition put (y : string) (t : tr) (a : asg) : asg := upd a y (value_or (teval t a)).

  (** a variable that is not drawn can be set before or after *)
  Lemma den_shift : forall s, wf_spe s -> forall y v f a, ~ vars s y -> den s f (upd a y v) = den s (fun b => f (upd b y v)) a.
  Proof.
    assert (Lf : forall s, is_leaf s = true -> wf_spe s -> forall y v f a, ~ vars s y -> den s f (upd a y v) = den s (fun b => f (upd b y v)) a).
    { intros s Il W y v f a Hy. apply wf_leaf_spe in W; auto. rewrite !den_leaf by auto. f_equal. extensionality u. f_equal. extensionality z.
      unfold upd at 2. destruct (String.eqb_spec y z) as [<-|Ne].
      - rewrite (leaf_place_out dlaw) by auto. unfold upd. now rewrite String.eqb_refl.
      - apply (leaf_place_agree dlaw); auto. right. unfold upd. destruct (String.eqb_spec y z); tauto. }
    induction s using spe_ind'; intros W; try (apply Lf; auto; fail).
    - intros y v f a Hy. cbn [SpeSpec.den]. apply sumR_ext. intros c Hc. f_equal. apply H; auto; [now apply (sum_wf dlaw l)|]. now rewrite <- (sum_vars dlaw l c W Hc).
    - intros y v f a Hy. change (den_prod l f (upd a y v) = den_prod l (fun b => f (upd b y v)) a).
      assert (K : forall c, In c l -> wf_spe c /\ ~ vars c y) by (intros c Hc; split; [now apply (prod_wf dlaw l)|intro; apply Hy; apply pvars_in; eauto]).
      clear W Hy. revert f a. induction l as [|c l IH]; intros f a; auto. cbn [SpeSpec.den_prod]. destruct (K c) as (Wc & Hc); [now left|].
      rewrite (H c) by (auto; now left). f_equal. extensionality b. apply IH; intros; [apply H|apply K]; auto; now right.
  Qed.
  Lemma prod_shift : forall l, Forall wf_spe l -> forall y v f a, (forall c, In c l -> ~ vars c y) -> den_prod l f (upd a y v) = den_prod l (fun b => f (upd b y v)) a.
  Proof.
    induction 1 as [|c l Wc Wl IH]; intros y v f a Hy; auto. cbn [SpeSpec.den_prod]. rewrite den_shift by (auto; apply Hy; now left).
    f_equal. extensionality b. apply IH. intros; apply Hy; now right.
  Qed.

  (** leaves *)
  Lemma known_ok : forall (t : tr) l, known t l = true <-> forall x, In x (symbols t) -> In x l.
  Proof. intros t l. unfold known. rewrite forallb_forall. split; intros H x Hx; apply inb_string; auto. Qed.
  Lemma new_env_ok : forall (env : tenv (N:=N)) y t env', new_env env y t = Ok env' -> env' = env ++ [(y, t)] /\ ~ In y (map fst env) /\ forall x, In x (symbols t) -> In x (map fst env).
  Proof.
    intros env y t env' H. unfold new_env in H. inv_bind H. inv_bind H. injection H as <-. unfold passert in *.
    destruct (inb String.eqb y (map fst env)) eqn:Ey; [discriminate|]. destruct (known t (map fst env)) eqn:Et; [|discriminate]. split; auto. split.
    - intro K. apply inb_string in K. congruence.
    - now apply known_ok.
  Qed.
  Lemma new_env_total : forall (env : tenv (N:=N)) y t, ~ In y (map fst env) -> (forall x, In x (symbols t) -> In x (map fst env)) -> new_env env y t = Ok (env ++ [(y, t)]).
  Proof.
    intros env y t Hy Ht. unfold new_env, passert. apply known_ok in Ht. rewrite Ht. destruct (inb String.eqb y (map fst env)) eqn:E; auto. apply inb_string in E. contradiction.
  Qed.
  Definition nice (t : tr) (a : asg) : Prop := teval t a <> None /\ regular true t a.
  Lemma built_symbols : forall X (env : tenv (N:=N)), env_built X env -> forall z u, lookup z env = Some u -> forall q, In q (symbols u) -> In q (map fst env).
  Proof.
    intros X env B. induction B as [|env y t B IH Fr Sy]; intros z u L q Hq.
    - cbn in L. destruct (String.eqb_spec z X); [injection L as <-|discriminate]. destruct Hq as [<-|[]]. now left.
    - rewrite lookup_app in L. rewrite map_app. apply in_app_iff. left. destruct (lookup z env) eqn:E.
      + injection L as <-. now apply (IH z t0).
      + cbn in L. destruct (String.eqb z y); [injection L as <-; auto|discriminate].
  Qed.
  Lemma env_ext_ok : forall x (env : tenv (N:=N)) y t, env_ok x env -> good t -> realv t -> ~ In y (map fst env) -> (forall z, In z (symbols t) -> In z (map fst env)) -> env_ok x (env ++ [(y, t)]).
  Proof.
    intros x env y t (B & G) Gt Rt Fr Sy. split; [now constructor|]. intros z u L. rewrite lookup_app in L. destruct (lookup z env) eqn:E.
    - injection L as <-. now apply (G z).
    - cbn in L. destruct (String.eqb z y) eqn:Ez; [injection L as <-; auto|discriminate].
  Qed.
  Lemma place_ext : forall x env y t w v, place x (env ++ [(y, t)]) w v = put y t (place (N:=N) x env w v).
  Proof. intros. unfold place. rewrite derive_app. reflexivity. Qed.
  Lemma upd_other : forall (a : asg) y v z, z <> y -> upd a y v z = a z.
  Proof. intros a y v z H. unfold upd. destruct (String.eqb_spec y z); congruence. Qed.
  Lemma upd_same : forall (a : asg) y v, upd a y v y = v.
  Proof. intros a y v. unfold upd. now rewrite String.eqb_refl. Qed.
  Lemma put_fine : forall x (env : tenv (N:=N)) y t a, env_ok x env -> good t -> ~ In y (map fst env) -> (forall z, In z (symbols t) -> In z (map fst env)) ->
    env_fine env a -> nice t a -> env_fine (env ++ [(y, t)]) (put y t a).
  Proof.
    intros x env y t a (B & G) Gt Fr Sy (Co & Re) (Df & Rg).
    assert (Ag : forall u : tr, good u -> (forall z, In z (symbols u) -> In z (map fst env)) -> teval u (put y t a) = teval u a /\ (regular (N:=N) true u a -> regular true u (put y t a))).
    { intros u Gu Su. split.
      - apply teval_agree; auto. intros z Hz. apply upd_other. intros ->. apply Fr; auto.
      - apply regular_agree; auto. intros z Hz. symmetry. apply upd_other. intros ->. apply Fr; auto. }
    assert (Sl : forall z u, lookup z env = Some u -> forall q, In q (symbols u) -> In q (map fst env)).
    { exact (built_symbols x env B). }
    split.
    - intros z u L. rewrite lookup_app in L. destruct (lookup z env) eqn:E.
      + injection L as <-. rewrite (proj1 (Ag t0 (proj1 (G z t0 E)) (Sl z t0 E))). rewrite (Co z t0 E). f_equal. symmetry. apply upd_other. intros ->. apply Fr. apply lookup_in. eauto.
      + cbn in L. destruct (String.eqb_spec z y) as [->|]; [injection L as <-|discriminate]. rewrite (proj1 (Ag t Gt Sy)). unfold put. rewrite upd_same. destruct (teval t a); [reflexivity|congruence].
    - intros z u L. rewrite lookup_app in L. destruct (lookup z env) eqn:E.
      + injection L as <-. apply (Ag t0 (proj1 (G z t0 E)) (Sl z t0 E)). now apply (Re z).
      + cbn in L. destruct (String.eqb_spec z y) as [->|]; [injection L as <-|discriminate]. now apply (Ag t Gt Sy).
  Qed.

  Definition heavy (s : spe) : Prop := match s with SumSPE l => Forall (fun c => 0 < toP (snd c)) l | _ => True end.
  Definition transformed (s : spe) (y : string) (t : tr) (s' : spe) : Prop :=
    wf_spe s' /\ ~ vars s y /\ (forall x, In x (symbols t) -> vars s x) /\ (forall x, vars s' x <-> vars s x \/ x = y) /\
    forall f a, den s' f a = den s (fun b => f (put y t b)) a.

  Lemma in_ext : forall (env : tenv (N:=N)) y t x, In x (map fst (env ++ [(y, t)])) <-> In x (map fst env) \/ x = y.
  Proof. intros. rewrite map_app, in_app_iff. cbn. firstorder. Qed.
  Lemma surely_den : forall s (P : asg -> Prop), wf_spe s -> surely s P -> forall w, den s (ind P) w = 1.
  Proof.
    intros s P W H w. specialize (H w). pose proof (den_kernel dlaw s W w) as L.
    assert (E : den s (fun a => ind P a + ind (fun w => ~ P w) a) w = 1).
    { rewrite <- (law_one L). f_equal. extensionality a. unfold ind. destruct (dec (P a)), (dec (~ P a)); try tauto; lra. }
    rewrite (law_plus L) in E by auto with bnd. lra.
  Qed.
  Lemma surely_and : forall s (P Q : asg -> Prop), wf_spe s -> surely s P -> surely s Q -> surely s (fun a => P a /\ Q a).
  Proof.
    intros s P Q W HP HQ w. pose proof (den_kernel dlaw s W w) as L.
    apply (law_null_sub L (fun a => ~ P a \/ ~ Q a)).
    - apply (law_null_or L); auto.
    - intros a H. destruct (dec (P a)); tauto.
  Qed.
  Lemma transform_leaf : forall s s' y t, is_leaf s = true -> wf_spe s -> good t -> realv t -> surely s (nice t) -> transform s y t = Ok s' -> transformed s y t s'.
  Proof.
    intros s s' y t Il W Gt Rt Nt H. destruct s; try discriminate; cbn [transform] in H.
    - inv_bind H. apply new_env_ok in E. destruct E as (-> & Fr & Sy). unfold mk_RealLeaf in H. inv_bind H. inv_bind H. injection H as <-.
      destruct W as (W1 & W2 & W3 & W4 & W5 & W6). assert (Dn : forall f a, den (RealLeaf disc x d supp cond (env ++ [(y, t)])) f a = den (RealLeaf disc x d supp cond env) (fun b => f (put y t b)) a).
      { intros f a. cbn [SpeSpec.den]. f_equal. extensionality v. now rewrite place_ext. }
      split; [|split; [exact Fr|split; [exact Sy|split; [intros z; apply in_ext|exact Dn]]]].
      refine (conj W1 (conj W2 (conj W3 (conj W4 (conj (env_ext_ok x env y t W5 Gt Rt Fr Sy) _))))).
      intros w. rewrite Dn. assert (W : wf_spe (RealLeaf disc x d supp cond env)) by (exact (conj W1 (conj W2 (conj W3 (conj W4 (conj W5 W6)))))).
      apply (law_null_sub (den_kernel dlaw _ W w) (fun a => ~ (env_fine env a /\ nice t a))).
      + apply (surely_and _ _ _ W W6 Nt).
      + intros a Ha (K1 & K2). apply Ha. now apply (put_fine x).
    - inv_bind H. apply new_env_ok in E. destruct E as (-> & Fr & Sy). injection H as <-.
      destruct W as (W5 & W6). assert (Dn : forall f b, den (AtomicLeaf x v (env ++ [(y, t)])) f b = den (AtomicLeaf x v env) (fun b => f (put y t b)) b).
      { intros f b. cbn [SpeSpec.den]. now rewrite place_ext. }
      split; [|split; [exact Fr|split; [exact Sy|split; [intros z; apply in_ext|exact Dn]]]].
      refine (conj (env_ext_ok x env y t W5 Gt Rt Fr Sy) _).
      intros w. rewrite Dn. assert (W : wf_spe (AtomicLeaf x v env)) by (exact (conj W5 W6)).
      apply (law_null_sub (den_kernel dlaw _ W w) (fun a => ~ (env_fine env a /\ nice t a))).
      + apply (surely_and _ _ _ W W6 Nt).
      + intros b Hb (K1 & K2). apply Hb. now apply (put_fine x).
  Qed.
  Lemma sum_null : forall A (f : A -> R) l, (forall a, In a l -> 0 <= f a) -> sumR (map f l) = 0 -> forall a, In a l -> f a = 0.
  Proof.
    intros A f l H T a Ha. pose proof (H a Ha). apply in_split in Ha. destruct Ha as (l1 & l2 & ->). rewrite map_app, sumR_app in T. cbn [map sumR fold_right] in T.
    assert (forall m, (forall b, In b m -> In b (l1 ++ a :: l2)) -> 0 <= sumR (map f m)) as K.
    { intros m Hm. apply sumR_nonneg. apply Forall_forall. intros z Hz. apply in_map_iff in Hz. destruct Hz as (b & <- & Hb). auto. }
    pose proof (K l1 ltac:(intros; apply in_app_iff; tauto)). pose proof (K l2 ltac:(intros; apply in_app_iff; simpl; tauto)). unfold sumR in *. lra.
  Qed.
  Lemma surely_child : forall l (P : asg -> Prop) c, wf_spe (SumSPE l) -> heavy (SumSPE l) -> surely (SumSPE l) P -> In c l -> surely (fst c) P.
  Proof.
    intros l P c W Hv H Hc w. specialize (H w). cbn [SpeSpec.den] in H. unfold heavy in Hv. rewrite Forall_forall in Hv.
    assert (K : toP (snd c) * den (fst c) (ind (fun w => ~ P w)) w = 0).
    { apply (sum_null _ (fun c => toP (snd c) * den (fst c) (ind (fun w => ~ P w)) w) l); auto. intros d Hd. apply Rmult_le_pos; [left; auto|].
      apply (law_01 (den_kernel dlaw (fst d) (sum_wf dlaw l W d Hd) w)). }
    specialize (Hv c Hc). apply Rmult_integral in K. destruct K; [lra|auto].
  Qed.
  Lemma nice_agree : forall (t : tr) a b, good t -> (forall x, In x (symbols t) -> a x = b x) -> nice t a -> nice t b.
  Proof. intros t a b G E (H1 & H2). split; [now rewrite <- (teval_agree t a b)|now apply (regular_agree t true a b)]. Qed.
  Lemma nice_ignores : forall (t : tr) V, good t -> (forall x, In x (symbols t) -> ~ V x) -> ignores V (ind (fun a => ~ nice t a)).
  Proof.
    intros t V G H w w' E. apply ind_eq. split; intros K L; apply K; [apply (nice_agree t w' w); auto; intros x Hx; symmetry; apply E; auto|apply (nice_agree t w w'); auto; intros x Hx; apply E; auto].
  Qed.
  (** products: one child is transformed *)
  Definition go (y : string) (t : tr) : list spe -> res (list spe) :=
    fix go (l : list spe) : res (list spe) :=
        match l with
        | [] => Ok []
        | c :: l => if known t (get_symbols c) then do c' <- transform c y t; Ok (c' :: l)
                    else do l' <- go l; Ok (c :: l')
        end.
  Lemma go_split : forall y t l l', go y t l = Ok l' -> existsb (fun c => known t (get_symbols c)) l = true ->
    exists l1 c c' l2, l = l1 ++ c :: l2 /\ l' = l1 ++ c' :: l2 /\ known t (get_symbols c) = true /\ transform c y t = Ok c' /\
      forall d, In d l1 -> known t (get_symbols d) = false.
  Proof.
    induction l as [|c l IH]; intros l' H Ex; [discriminate|]. cbn [go existsb] in *. destruct (known t (get_symbols c)) eqn:K.
    - inv_bind H. injection H as <-. exists [], c, r, l. repeat split; auto. intros d [].
    - inv_bind H. injection H as <-. cbn [orb] in Ex. destruct (IH r E Ex) as (l1 & d & d' & l2 & -> & -> & Kd & Td & F). exists (c :: l1), d, d', l2. repeat split; auto.
      intros e [<-|He]; auto.
  Qed.
  Lemma all_app : forall A (P : A -> Prop) l m, All P (l ++ m) <-> All P l /\ All P m.
  Proof. induction l as [|a l IH]; intros m; cbn; [tauto|]. rewrite IH. tauto. Qed.
  Lemma fop_mid : forall A (P : A -> A -> Prop) l1 c l2, ForallOrdPairs P (l1 ++ c :: l2) ->
    Forall (fun d => P d c) l1 /\ Forall (P c) l2 /\ (forall a b, In a l1 -> In b l2 -> P a b).
  Proof.
    induction l1 as [|a l1 IH]; intros c l2 H; inversion H as [|? ? H1 H2]; subst.
    - repeat split; auto. intros a b [].
    - apply IH in H2. destruct H2 as (K1 & K2 & K3). rewrite Forall_forall in H1. split; [|split]; auto.
      + constructor; auto. apply H1, in_app_iff. simpl. auto.
      + intros a' b [<-|Ha] Hb; auto. apply H1, in_app_iff. simpl. auto.
  Qed.
  Lemma filter_one : forall A (p : A -> bool) l1 c l2, List.length (filter p (l1 ++ c :: l2)) = 1%nat -> p c = true -> forall d, In d l1 \/ In d l2 -> p d = false.
  Proof.
    intros A p l1 c l2 H Pc d Hd. rewrite filter_app in H. cbn [filter] in H. rewrite Pc in H. rewrite app_length in H. cbn [List.length] in H.
    destruct (p d) eqn:Pd; auto. assert (K : forall l, In d l -> (1 <= List.length (filter p l))%nat).
    { intros l Hl. assert (In d (filter p l)) as I by (apply filter_In; auto). destruct (filter p l); [destruct I|cbn; lia]. }
    destruct Hd as [Hd|Hd]; apply K in Hd; lia.
  Qed.
  Lemma surely_factor : forall l1 c l2 (t : tr), wf_spe (ProductSPE (l1 ++ c :: l2)) -> good t -> (forall x, In x (symbols t) -> vars c x) ->
    surely (ProductSPE (l1 ++ c :: l2)) (nice t) -> surely c (nice t).
  Proof.
    intros l1 c l2 t (_ & W & Ap) G Sy H w. specialize (H w). rewrite den_prod_eq in H || change (den_prod (l1 ++ c :: l2) (ind (fun a => ~ nice t a)) w = 0) in H.
    apply all_app in W. destruct W as (W1 & Wc & W2). apply fop_mid in Ap. destruct Ap as (A1 & A2 & _). rewrite Forall_forall in A1, A2.
    assert (O2 : forall x, In x (symbols t) -> ~ pvars l2 x).
    { intros x Hx K. apply pvars_in in K. destruct K as (d & Hd & K). apply (A2 d Hd x); auto. }
    assert (O1 : forall x, vars c x -> ~ pvars l1 x).
    { intros x Hx K. apply pvars_in in K. destruct K as (d & Hd & K). apply (A1 d Hd x); auto. }
    set (Z := ind (fun a => ~ nice t a)) in *.
    assert (E2 : den_prod l2 Z = Z).
    { extensionality a. pose proof (prod_factor dlaw l2 (fun _ => 1) Z a W2) as F. rewrite (law_one (prod_kernel dlaw l2 W2 a)) in F. rewrite Rmult_1_l in F. rewrite <- F; auto with bnd.
      - f_equal. extensionality b. ring.
      - now apply nice_ignores. }
    rewrite den_prod_app in H. cbn [SpeSpec.den_prod] in H. rewrite E2 in H.
    assert (U : ignores (pvars l1) (den c Z)).
    { intros a b E. apply (den_local dlaw c Wc (fun x => ~ vars c x)).
      - apply nice_ignores; auto.
      - intros x Hx. apply E. intro K. destruct (dec (vars c x)); [now apply (O1 x)|tauto]. }
    pose proof (prod_factor dlaw l1 (fun _ => 1) (den c Z) w W1) as F. rewrite (law_one (prod_kernel dlaw l1 W1 w)) in F. rewrite Rmult_1_l in F. rewrite <- F; auto.
    - rewrite <- H. f_equal. extensionality b. ring.
    - exists 1. intros. rewrite Rabs_R1. lra.
  Qed.
  Theorem transform_ok : forall s y t s', wf_spe s -> every heavy s -> good t -> realv t -> surely s (nice t) -> transform s y t = Ok s' -> transformed s y t s'.
  Proof.
    induction s using spe_ind'; intros y t s' W Hv Gt Rt Nt T; try (apply (fun I => transform_leaf _ _ _ _ I W Gt Rt Nt T); reflexivity).
    - cbn [transform] in T. inv_bind T. apply mapM_Forall2 in E.
      assert (F : Forall2 (fun c c' => transformed (fst c) y t c') l r).
      { assert (K : forall c, In c l -> forall c', transform (fst c) y t = Ok c' -> transformed (fst c) y t c').
        { intros c Hc c' T'. apply (H c Hc); auto; [now apply (sum_wf dlaw l)|now apply (every_sum heavy l)|]. apply (surely_child l); auto. exact (every_here _ _ Hv). }
        clear -E K dlaw. induction E; constructor; [apply K; [now left|auto]|]. apply IHE. intros; apply K; auto; now right. }
      assert (Len := Forall2_len _ _ _ _ _ F).
      assert (Wr : Forall wf_spe r) by (clear -F dlaw; induction F; constructor; auto; apply H).
      destruct (mk_Sum_ok dlaw r (map snd l) s' Wr T) as (_ & Wt & _ & Vt & Dt).
      { rewrite map_map. apply W. }
      assert (Ne : l <> []) by (exact (sum_nonempty dlaw l W)). destruct l as [|c0 l0]; [tauto|]. inversion F as [|? c0' ? r0 F0 Fr]; subst.
      destruct F0 as (_ & F2 & F3 & F4 & _). split; [exact Wt|]. split; [exact F2|]. split; [exact F3|]. split.
      + intros x. rewrite (Vt c0' x) by (now left). apply F4.
      + intros f a. rewrite Dt. cbn [SpeSpec.den]. clear -F dlaw. revert F. generalize (c0 :: l0) (c0' :: r0). induction 1 as [|c c' l m H F IH]; auto. cbn [map combine sumR fold_right fst snd]. unfold sumR in IH. rewrite IH. f_equal. f_equal. apply H.
    - cbn [transform] in T. inv_bind T. inv_bind T. inv_bind T. change (go y t l = Ok r1) in E1. clear E. unfold passert in E0. destruct (Nat.eqb _ 1) eqn:One in E0; [|discriminate]. clear E0. apply Nat.eqb_eq in One.
      assert (Ex : existsb (fun c => known t (get_symbols c)) l = true).
      { destruct (filter (fun c => known t (get_symbols c)) l) as [|c m] eqn:Ef; [discriminate|]. apply existsb_exists. exists c. apply (proj1 (filter_In (fun c => known t (get_symbols c)) c l)). rewrite Ef. now left. }
      destruct (go_split y t l r1 E1 Ex) as (l1 & c & c' & l2 & -> & -> & Kc & Tc & _).
      assert (Sc : forall x, In x (symbols t) -> vars c x) by (intros x Hx; apply (get_symbols_vars dlaw); now apply (proj1 (known_ok t _) Kc)).
      assert (Hc : In c (l1 ++ c :: l2)) by (apply in_app_iff; simpl; auto).
      assert (Fc : transformed c y t c').
      { apply (H c Hc); auto; [now apply (prod_wf dlaw (l1 ++ c :: l2))|now apply (every_prod heavy (l1 ++ c :: l2))|]. now apply (surely_factor l1 c l2). }
      destruct W as (_ & W & Ap). apply all_app in W. destruct W as (W1 & Wc & W2). apply fop_mid in Ap. destruct Ap as (A1 & A2 & _). rewrite Forall_forall in A1, A2.
      destruct Fc as (Wc' & Yc & _ & Vc & Dc).
      destruct (mk_Product_ok dlaw (l1 ++ c' :: l2) s') as (Wt & _ & Vt & _ & Apt & Dt); auto.
      { apply Forall_app. split; [now apply All_Forall|]. constructor; auto. now apply All_Forall. }
      apply fop_mid in Apt. destruct Apt as (B1 & B2 & _). rewrite Forall_forall in B1, B2.
      assert (Y' : vars c' y) by (apply Vc; auto).
      split; [exact Wt|]. split; [|split; [|split]].
      + intros K. apply pvars_in in K. destruct K as (d & Hd & K). apply in_app_iff in Hd. destruct Hd as [Hd|[<-|Hd]]; [apply (B1 d Hd y); auto|auto|apply (B2 d Hd y); auto].
      + intros x Hx. apply pvars_in. exists c. auto.
      + intros x. rewrite Vt. setoid_rewrite pvars_in. split.
        * intros (d & Hd & K). apply in_app_iff in Hd. destruct Hd as [Hd|[<-|Hd]]; [left; exists d; split; auto; apply in_app_iff; auto| |left; exists d; split; auto; apply in_app_iff; simpl; auto].
          apply Vc in K. destruct K; [left; eauto|auto].
        * intros [(d & Hd & K)|K]; [|subst x; exists c'; split; auto; apply in_app_iff; simpl; auto]. apply in_app_iff in Hd. destruct Hd as [Hd|[<-|Hd]]; [exists d; split; auto; apply in_app_iff; auto| |exists d; split; auto; apply in_app_iff; simpl; auto].
          exists c'. split; [apply in_app_iff; simpl; auto|]. apply Vc. auto.
      + intros f a. rewrite Dt. change (den (ProductSPE (l1 ++ c :: l2)) ?g a) with (den_prod (l1 ++ c :: l2) g a). rewrite !den_prod_app. f_equal. extensionality b. cbn [SpeSpec.den_prod]. rewrite Dc. f_equal. extensionality e.
        unfold put at 1. rewrite prod_shift.
        * apply (prod_reach_wf dlaw l2 W2). intros g Hg. unfold put. do 3 f_equal. apply teval_agree; auto. intros x Hx. apply Hg. intros K. apply pvars_in in K. destruct K as (d & Hd & K). apply (A2 d Hd x); auto.
        * now apply All_Forall.
        * intros d Hd K. apply (B2 d Hd y); auto.
  Qed.

  (** the types of the variables *)
  Lemma known_mono : forall (t : tr) l m, (forall x, In x l -> In x m) -> known t l = true -> known t m = true.
  Proof. intros t l m H K. apply known_ok. intros x Hx. apply H. now apply (proj1 (known_ok t l) K). Qed.
  Definition envof_ext (envof : string -> tenv (N:=N)) (y : string) (t : tr) (x : string) : tenv (N:=N) :=
    if known t (map fst (envof x)) then envof x ++ [(y, t)] else envof x.
  Lemma typed_other : forall nominal envof s y t, wf_spe s -> typed (D:=D) nominal envof s -> known t (get_symbols s) = false -> typed nominal (envof_ext envof y t) s.
  Proof.
    intros nominal envof s y t. induction s using spe_ind'; intros W T K.
    - exact T.
    - split; [|exact Logic.I]. destruct T as ((-> & T) & _). cbn [get_symbols] in K. unfold part_ok, envof_ext. rewrite K. split; auto.
    - exact T.
    - split; [apply T|]. apply all_forall. intros c Hc. apply H; auto; [now apply (sum_wf dlaw l)|now apply (every_sum _ l)|].
      destruct (known t (get_symbols (fst c))) eqn:Kc; auto. rewrite <- K. symmetry. apply (known_mono t (get_symbols (fst c))); auto. intros x Hx.
      apply (get_symbols_vars dlaw). apply (sum_vars dlaw l c W Hc). now apply (get_symbols_vars dlaw).
    - split; [apply T|]. apply all_forall. intros c Hc. apply H; auto; [now apply (prod_wf dlaw l)|now apply (every_prod _ l)|].
      destruct (known t (get_symbols c)) eqn:Kc; auto. rewrite <- K. symmetry. apply (known_mono t (get_symbols c)); auto. intros x Hx.
      apply (get_symbols_vars dlaw). apply pvars_in. exists c. split; auto. now apply (get_symbols_vars dlaw).
  Qed.
  Theorem transform_typed : forall nominal envof s y t s', wf_spe s -> typed (D:=D) nominal envof s -> nominal y = false -> transform s y t = Ok s' ->
    typed nominal (envof_ext envof y t) s'.
  Proof.
    intros nominal envof s y t. induction s using spe_ind'; intros s' W Ty Ny T; cbn [transform] in T.
    - inv_bind T. apply new_env_ok in E. destruct E as (-> & _ & _). unfold mk_RealLeaf in T. inv_bind T. inv_bind T. injection T as <-. split; [|exact Logic.I].
      intros z Hz. apply in_ext in Hz. destruct Hz as [Hz|Hz]; [now apply Ty|congruence].
    - inv_bind T. apply new_env_ok in E. destruct E as (-> & _ & Sy). injection T as <-. split; [|exact Logic.I]. destruct Ty as ((-> & Ty) & _). split.
      + unfold envof_ext. now rewrite (proj2 (known_ok t _) Sy).
      + intros z Hz. apply in_ext in Hz. destruct Hz as [Hz|Hz]; [now apply Ty|congruence].
    - discriminate.
    - inv_bind T. apply mapM_Forall2 in E. apply (mk_Sum_every (part_ok nominal (envof_ext envof y t)) True (part_sum nominal (envof_ext envof y t)) r (map snd l)); auto.
      + apply Forall_forall. intros c' Hc'. destruct (ArithProofs.Forall2_in_r _ _ _ _ _ _ E Hc') as (c & Hc & Tc). apply (H c Hc); auto; [now apply (sum_wf dlaw l)|now apply (every_sum _ l)].
      + intros _. apply Forall_map. apply (every_here _ _ Ty).
    - inv_bind T. inv_bind T. inv_bind T. change (go y t l = Ok r1) in E1. clear E. unfold passert in E0. destruct (Nat.eqb _ 1) eqn:One in E0; [|discriminate]. clear E0. apply Nat.eqb_eq in One.
      assert (Ex : existsb (fun c => known t (get_symbols c)) l = true).
      { destruct (filter (fun c => known t (get_symbols c)) l) as [|c m] eqn:Ef; [discriminate|]. apply existsb_exists. exists c. apply (proj1 (filter_In (fun c => known t (get_symbols c)) c l)). rewrite Ef. now left. }
      destruct (go_split y t l r1 E1 Ex) as (l1 & c & c' & l2 & -> & -> & Kc & Tc & _).
      assert (Hc : In c (l1 ++ c :: l2)) by (apply in_app_iff; simpl; auto).
      pose proof (filter_one _ _ _ _ _ One Kc) as Ot. 
      assert (Oth : forall d, In d l1 \/ In d l2 -> typed nominal (envof_ext envof y t) d).
      { intros d Hd. assert (In d (l1 ++ c :: l2)) by (apply in_app_iff; simpl; tauto). apply typed_other; [now apply (prod_wf dlaw (l1 ++ c :: l2))|now apply (every_prod _ (l1 ++ c :: l2))|now apply Ot]. }
      apply (mk_Product_every (part_ok nominal (envof_ext envof y t)) (part_prod nominal (envof_ext envof y t)) (l1 ++ c' :: l2)); auto.
      apply Forall_app. split; [apply Forall_forall; intros; apply Oth; auto|]. constructor; [|apply Forall_forall; intros; apply Oth; auto].
      apply (H c Hc); auto; [now apply (prod_wf dlaw (l1 ++ c :: l2))|now apply (every_prod _ (l1 ++ c :: l2))].
  Qed.
End TransformProofs.
