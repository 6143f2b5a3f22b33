(** The interpreter can run the commands of a rendered expression, and they mean the expression. *)
From Coq Require Import List Bool String Reals Lra Lia ZArith QArith Qreals FunctionalExtensionality PropExtensionality Classical.
From Verif Require Import Base Num Sets SetSpec Poly Trans TransSpec TransFacts Dnf DnfSpec Logs Spe SpeSpec SpeFacts SpeOps Prog ProgSpec ProgProofs SourceKernel
  NormSorts SpeEq CondTypes PropSpe SpeCons LeafEvents LeafProofs SampleSim Source Render RenderSpec RenderCode.
Import ListNotations.
Local Open Scope R_scope.

Section Fits.
  Context {N : numsys} {S : logsys} {D : distsys N S}.
  Context (dlaw : dist D -> (fval -> R) -> R) (nominal : string -> bool) (lexp : lg S -> Q).
  Notation spe := (spe D).
  Notation tr := (tr N).
  Notation command := (command (N:=N) (D:=D)).
  Notation den := (den dlaw).
  Notation wf_leaf := (wf_leaf dlaw).
  Notation meaning := (meaning dlaw).
  Notation fits := (fits dlaw nominal).
  Notation kernel := ProgSpec.kernel.
  Notation coded := (coded dlaw nominal lexp).
  Notation coded_all := (coded_all dlaw nominal lexp).
  Notation coded_cases := (coded_cases dlaw nominal lexp).
  Context (Hl : forall w, Q2R (lexp w) = toP w) (Hn : forall n, nominal (branch_var n) = true).

  (** ** Distributions, or nothing *)
  Definition fair (K : kernel) : Prop := forall w, meas w K /\ (K (fun _ => 1) w = 1 \/ K (fun _ => 1) w = 0).
  Lemma fair_start : fair start.
  Proof. intros w. split; [apply start_meas|now left]. Qed.
  Lemma fair_null : forall K w f, fair K -> K (fun _ => 1) w = 0 -> bnd f -> K f w = 0.
  Proof.
    intros K w f F Z Hf. destruct (F w) as (M & _). apply (me_null w K M (fun _ => True)); auto; [|tauto]. rewrite <- Z. apply me_ext. intros a. now apply ind_true.
  Qed.
  Lemma fair_agree : forall K L, fair K -> (forall f w, bnd f -> L f w = K f w) -> fair L.
  Proof.
    intros K L F E w. destruct (F w) as (M & Mass). split.
    - apply (agree_meas w K L M). intros f Hf. symmetry. auto.
    - rewrite !E by auto with bnd. exact Mass.
  Qed.
  Lemma fair_restrict : forall K P, fair K -> fair (restrict K P).
  Proof.
    intros K P F w. destruct (F w) as (M & _). split; [now apply me_restrict|]. unfold restrict. rewrite (me_ext w K (fun a => 1 * ind P a) (ind P)) by (intro; ring).
    destruct (Req_EM_T (K (ind P) w) 0) as [E|E]; [right; rewrite E; unfold Rdiv; ring|left; now field].
  Qed.
  Lemma sure_null : forall K (P : asg -> Prop) f w, fair K -> sure K P -> bnd f -> (forall a, P a -> f a = 0) -> K f w = 0.
  Proof. intros K P f w F Su Hf H. destruct (F w) as (M & _). apply (me_null w K M _ _ (Su w)); auto. intros a Ha. apply H. now apply NNPP. Qed.
  Lemma sure_restrict : forall K P Q, fair K -> sure K Q -> sure (restrict K P) Q.
  Proof.
    intros K P Q F Su w. unfold restrict. rewrite (sure_null K Q (fun a => ind (fun a => ~ Q a) a * ind P a) w F Su); auto with bnd; [unfold Rdiv; ring|]. intros a Ha. rewrite (ind_false _ (fun a => ~ Q a)) by tauto. ring.
  Qed.
  Lemma sure_weak : forall K (P Q : asg -> Prop), fair K -> sure K P -> (forall a, P a -> Q a) -> sure K Q.
  Proof. intros K P Q F Su H w. apply (sure_null K P _ w F Su); auto with bnd. intros a Ha. apply ind_false. intros Nq. auto. Qed.
  Lemma sure_all : forall K (P : asg -> Prop), fair K -> (forall a, P a) -> sure K P.
  Proof. intros K P F H w. destruct (F w) as (M & _). rewrite (me_ext w K _ (fun a => 0 * (fun _ => 0) a)). - rewrite (me_scale w K M) by auto with bnd. ring. - intros a. rewrite ind_false; [ring|]. intros K'. auto. Qed.

  (** ** The values of the branch variables *)
  Definition in_range (bs : list (string * list (string * Q))) (a : asg) : Prop := Forall (fun b => exists p, In p (snd b) /\ a (fst b) = FStr (fst p)) bs.
  Lemma range_out : forall k s cs K bs es k' a b, coded k s cs K bs -> map fst es = map branch_var (seq k' (List.length es)) -> same_out (vars s) a b -> in_range es a -> in_range es b.
  Proof.
    intros k s cs K bs es k' a b C Ne So H. unfold in_range in *. rewrite Forall_forall in *. intros e He. destruct (H e He) as (p & Hp & E). exists p. split; auto. rewrite <- E. symmetry. apply So.
    intros Hv. apply (proj1 (coded_plain dlaw nominal lexp) _ _ _ _ _ C) in Hv. destruct (names_range es k' (fst e) Ne) as (j & Ej & _); [now apply in_map|]. rewrite Ej in Hv. now apply not_plain in Hv.
  Qed.
  Lemma range_keys : forall (ws : list (lg S)) p, In p (branch_dist lexp ws) -> exists m, fst p = nat_text m /\ (m < List.length ws)%nat.
  Proof.
    intros ws (n, q) H. apply in_combine_l in H. apply in_map_iff in H. destruct H as (m & <- & Hm). apply in_seq in Hm. exists m. split; auto. lia.
  Qed.
  Lemma coded_total :
    (forall k s cs K bs, coded k s cs K bs -> forall a, in_range bs a -> K (fun _ => 1) a = 1) /\
    (forall k l cs K bs, coded_all k l cs K bs -> forall a, in_range bs a -> K (fun _ => 1) a = 1) /\
    (forall v i k l cs K bs, coded_cases v i k l cs K bs -> forall a m, in_range bs a -> a v = FStr (nat_text m) ->
       ((m < i)%nat -> K (fun _ => 1) a = 0) /\ ((i <= m < i + List.length l)%nat -> K (fun _ => 1) a = 1)).
  Proof.
    apply coded_mut; intros; auto.
    - apply (law_one (den_kernel dlaw (NominalLeaf x ws) H a)).
    - apply (law_one (den_kernel dlaw (RealLeaf disc x d supp cond env) H a)).
    - inversion H2 as [|? ? (p & Hp & E) H3]; subst. destruct (range_keys _ _ Hp) as (m & Em & Hm). rewrite map_length in Hm. cbn [fst] in E. rewrite Em in E. apply (H1 a m H3 E). lia.
    - apply Forall_app in H3. destruct H3 as (R1 & R2). pose proof (proj1 (coded_tame dlaw nominal lexp) _ _ _ _ _ H) as T. transitivity (K (fun _ => 1) a); [|now apply H0]. apply (ta_reach _ _ _ T). intros b Hb. apply H2.
      apply (range_out k c cs K bs es (k + List.length bs) a b H (proj1 (proj2 (coded_names dlaw nominal lexp)) _ _ _ _ _ H1) Hb R2).
    - cbn [List.length]. split; intros; [reflexivity|lia].
    - apply Forall_app in H4. destruct H4 as (R1 & R2). destruct (H3 a m R2 H5) as (A & B). cbn [List.length]. split; intros Hm.
      + rewrite A by lia. rewrite (ind_false _ (picked v i)); [ring|]. unfold picked. rewrite H5. intros [= E]. apply nat_text_inj in E. lia.
      + destruct (Nat.eq_dec m i) as [->|Ne].
        * rewrite A by lia. rewrite (ind_true _ (picked v i)) by exact H5. rewrite H0 by auto. ring.
        * rewrite B by lia. rewrite (ind_false _ (picked v i)); [ring|]. unfold picked. rewrite H5. intros [= E]. apply nat_text_inj in E. lia.
  Qed.

  (** ** Commands one after the other *)
  Lemma fits_app : forall cs ds V K V1 W, fits (Sequence cs) V K V1 -> fits (Sequence ds) V1 (meaning (Sequence cs) K) W -> fits (Sequence (cs ++ ds)) V K W.
  Proof.
    induction cs as [|c cs IH]; intros ds V K V1 W F1 F2.
    - inversion F1; subst. exact F2.
    - inversion F1; subst. cbn [app]. eapply fits_cons; [eassumption|]. eapply IH; eassumption.
  Qed.
  Lemma meaning_app : forall cs ds K, meaning (Sequence (cs ++ ds)) K = meaning (Sequence ds) (meaning (Sequence cs) K).
  Proof. intros. cbn [ProgSpec.meaning]. apply fold_left_app. Qed.
  Lemma fits_one : forall c V K W, fits (Sequence [c]) V K W -> fits c V K W.
  Proof. intros c V K W F. inversion F; subst. match goal with H : fits (Sequence []) _ _ _ |- _ => inversion H; subst end. assumption. Qed.
  Lemma one_fits : forall c V K W, fits c V K W -> fits (Sequence [c]) V K W.
  Proof. intros c V K W F. eapply fits_cons; [exact F|]. constructor. Qed.

  (** ** Leaves *)
  Lemma base_place : forall x (a : asg) v, place (N:=N) x (base_env x) a v = upd a x v.
  Proof. intros x a v. extensionality z. unfold place, base_env. cbn [derive teval value_or]. unfold upd. rewrite String.eqb_refl. destruct (String.eqb x z); reflexivity. Qed.
  Lemma upd_here : forall (a : asg) x v, upd a x v x = v.
  Proof. intros a x v. unfold upd. now rewrite String.eqb_refl. Qed.
  Lemma upd_upd : forall (a : asg) x v, upd (upd a x v) x v = upd a x v.
  Proof. intros a x v. extensionality z. unfold upd. destruct (String.eqb x z); reflexivity. Qed.
  Lemma real_dist_ok : forall disc x d (supp : interval N), wf_iv supp -> (disc = true -> disc_supp dlaw d supp) -> real_dist (D:=D) disc d supp x = Ok (RealLeaf disc x d supp false (base_env x)).
  Proof.
    intros disc x d supp Wi Wd. unfold real_dist, mk_RealLeaf.
    assert (E1 : (if disc then do b <- int_or_isinf_neg (iv_a supp); do _ <- passert b; do c <- int_or_isinf_pos (iv_b supp); passert c else Ok tt) = Ok tt).
    { destruct disc; [|reflexivity]. destruct (Wd eq_refl) as (Ia & Ib & _). destruct Wi as (Lt & _). destruct (iv_a supp) as [|a|]; destruct (iv_b supp) as [|b|]; cbn in Lt; try contradiction; cbn [int_or_isinf_neg int_or_isinf_pos bind passert].
      - rewrite (proj2 (is_int_int b) Ib). reflexivity.
      - reflexivity.
      - rewrite (proj2 (is_int_int a) Ia), (proj2 (is_int_int b) Ib). reflexivity.
      - rewrite (proj2 (is_int_int a) Ia). reflexivity. }
    rewrite E1. reflexivity.
  Qed.
  Lemma choice_ok : forall x (ws : list (string * Q)), wf_leaf (NominalLeaf x ws) -> choice ws x = Ok (NominalLeaf (D:=D) x ws).
  Proof.
    intros x ws (_ & _ & T). unfold choice, mk_NominalLeaf, FiniteNominal. destruct ws as [|p ws]; [exfalso; revert T; cbn; discriminate|]. cbn [map is_nil negb orb passert bind]. rewrite (proj2 (Qeq_bool_iff _ _)) by exact T. reflexivity.
  Qed.
  Lemma supp_holds : forall x (supp : interval N) (a : asg) v, is_num v -> (holds (supp_event x supp) (upd a x v) <-> in_iv supp v).
  Proof.
    intros x supp a v (r & ->). unfold holds, supp_event. cbn [teval]. unfold upd. rewrite String.eqb_refl. unfold truth, in_iv, one, zero. destruct (dec (fm (FNum r) (PB (BInt supp)))); split; intros H; auto; try discriminate; try contradiction. injection H as H. lra.
  Qed.
  Lemma bv_holds : forall v i a, holds (bv_event (N:=N) v i) a <-> picked v i a.
  Proof.
    intros v i a. unfold holds, bv_event, picked. cbn [teval]. destruct (a v) as [r|s]; [split; discriminate|]. unfold truth, one, zero. destruct (dec _) as [K|K]; split; intros H; auto; try discriminate.
    - f_equal. revert K. cbn. intuition congruence.
    - injection H as H. lra.
    - exfalso. apply K. injection H as ->. cbn. auto.
  Qed.
  Lemma fits_same : forall c V K W W', fits c V K W -> (forall z : string, W z <-> W' z) -> fits c V K W'.
  Proof. intros c V K W W' F E. replace W' with W; auto. extensionality z. now apply propositional_extensionality. Qed.
  Lemma built_head : forall x (env : tenv (N:=N)), env_built x env -> exists env', env = (x, TId x) :: env'.
  Proof. induction 1 as [|env y t B (env' & ->) Fr Sy]; [now exists []|]. eexists. reflexivity. Qed.
  Lemma transforms_ok : forall x env, env_built (N:=N) x env -> env_good env -> (forall y, In y (map fst env) -> nominal y = false) ->
    forall e2 ts e1 K V W, env = (x, TId x) :: e1 ++ e2 -> Forall2 derives e2 ts -> fair K -> sure K (fun a => consistent env (derive e2 a)) -> (forall z, W z <-> V z \/ In z (map fst e2)) ->
    fits (Sequence ts) V K W /\ forall f w, meaning (Sequence ts) K f w = K (fun a => f (derive e2 a)) w.
  Proof.
    intros x env B G Nom. induction e2 as [|(y, t) e2 IH]; intros ts e1 K V W E F Fk Su Hw; inversion F as [|? c ? ts' (t' & -> & St) F']; subst.
    - split; [|reflexivity]. apply (fits_same _ V K V); [constructor|]. intros z. rewrite Hw. cbn. tauto.
    - cbn [fst snd] in *. destruct St as (Gt' & Rt' & Ot' & Rg & Ev & _).
      set (env := (x, TId x) :: e1 ++ (y, t) :: e2) in *.
      destruct (built_split x env B ((x, TId x) :: e1) y t e2 eq_refl) as (L & Sy). destruct (G y t L) as (Gt & Rt).
      set (K1 := meaning (Transform y t') K).
      assert (E1 : forall f w, K1 f w = K (fun a => f (upd a y (value_or (teval t a)))) w) by (intros f w; unfold K1; cbn [ProgSpec.meaning]; apply me_ext; intros a; now rewrite Ev).
      destruct (IH ts' (e1 ++ [(y, t)]) K1 (fun z => V z \/ z = y) W) as (F2 & M2).
      + unfold env. now rewrite <- app_assoc.
      + exact F'.
      + intros w. destruct (Fk w) as (M & Mass). split; [|rewrite E1; exact Mass]. constructor; intros; rewrite !E1.
        * apply (me_plus w K M (fun a => f (upd a y _)) (fun a => g (upd a y _))); now apply bnd_comp.
        * apply (me_scale w K M c (fun a => f (upd a y _))); now apply bnd_comp.
        * apply (me_pos w K M (fun a => f (upd a y _))); [now apply bnd_comp|auto].
      + intros w. rewrite E1. rewrite <- (Su w). apply me_ext. intros a. apply ind_eq. reflexivity.
      + intros z. rewrite Hw. cbn. intuition auto.
      + split.
        * eapply fits_cons; [|exact F2]. apply fits_transform; auto.
          -- apply Nom. unfold env. cbn [map fst]. right. rewrite map_app. apply in_or_app. right. now left.
          -- apply (sure_weak K _ _ Fk Su). intros a C. cbn [derive] in C. rewrite Ev. specialize (C y t L). intros Z.
             enough (X : teval t (derive e2 (upd a y (value_or (teval t a)))) = teval t a) by (rewrite X, Z in C; discriminate).
             apply teval_agree; auto. intros s Hs.
             assert (Nd : NoDup (map fst env)) by (eapply built_nodup; eauto).
             assert (Ns : ~ In s (y :: map fst e2)).
             { unfold env in Nd. change ((x, TId x) :: e1 ++ (y, t) :: e2) with (((x, TId x) :: e1) ++ (y, t) :: e2) in Nd. rewrite map_app in Nd. intros Hin.
               assert (Hi : In s (map fst ((x, TId x) :: e1))) by (destruct (Sy s Hs) as [->|K']; [now left|exact K']).
               clear -Nd Hin Hi. induction (map fst ((x, TId x) :: e1)) as [|q l IHl]; [destruct Hi|]. cbn [app] in Nd. inversion Nd as [|? ? N1 N2]; subst. destruct Hi as [->|Hi]; [|auto]. apply N1. apply in_or_app. right. exact Hin. }
             rewrite derive_out by (intros K'; apply Ns; now right). unfold upd. destruct (String.eqb_spec y s) as [->|]; [exfalso; apply Ns; now left|reflexivity].
          -- apply (sure_all K _ Fk). exact Rg.
          -- intros z. tauto.
        * intros f w. change (meaning (Sequence (Transform y t' :: ts')) K f w) with (meaning (Sequence ts') K1 f w). rewrite M2, E1. reflexivity.
  Qed.
  Lemma law_zero : forall A (I : (A -> R) -> R) f, law I -> (forall a, f a = 0) -> I f = 0.
  Proof. intros A I f L H. rewrite <- (law_const L 0). apply law_ext. auto. Qed.

  Lemma real_leaf_ok : forall disc x d supp cond env supp0 ts, wf_leaf (RealLeaf disc x d supp cond env) -> (forall y, In y (map fst env) -> nominal y = false) ->
    wf_iv supp0 -> (disc = true -> disc_supp dlaw d supp0) -> dlaw d (ind (in_iv supp0)) = 1 -> Forall2 derives (tl env) ts ->
    forall K V W, fair K -> (forall z, W z <-> V z \/ In z (map fst env)) ->
    let cs := Sample x (real_dist disc d supp0) :: (if cond then [Condition (supp_event x supp)] else []) ++ ts in
    fits (Sequence cs) V K W /\ forall f w, bnd f -> meaning (Sequence cs) K f w = K (den (RealLeaf disc x d supp cond env) f) w.
  Proof.
    intros disc x d supp cond env supp0 ts Wf Nom Ws0 Wd0 P0 F2 K V W Fk Hw cs. pose proof Wf as (Wi & Wd & Dk & Pc & (B & G) & Su).
    destruct (built_head x env B) as (env' & ->). cbn [tl] in F2. pose proof (d_law _ _ _ Dk) as Ld.
    pose proof (real_dist_ok disc x d supp0 Ws0 Wd0) as Er. set (l0 := RealLeaf disc x d supp0 false (base_env x)) in *.
    set (K1 := meaning (Sample x (real_dist disc d supp0)) K).
    assert (E1 : forall f w, K1 f w = K (fun a => dlaw d (fun v => f (upd a x v))) w).
    { intros f w. unfold K1. cbn [ProgSpec.meaning]. rewrite Er. apply me_ext. intros a. cbn [SpeSpec.den]. unfold l0, real_law. cbn [SpeSpec.den]. unfold real_law. f_equal. extensionality v. now rewrite base_place. }
    assert (Bd : forall f : asg -> R, bnd f -> bnd (fun a : asg => dlaw d (fun v => f (upd a x v)))).
    { intros f (M & Hf). exists M. intros a. apply (law_bound Ld). intros v. apply Hf. }
    assert (F1 : fair K1).
    { intros w. destruct (Fk w) as (M & Mass). split.
      - constructor; intros; rewrite !E1.
        + rewrite <- (me_plus w K M) by auto. apply me_ext. intros a. apply (law_plus Ld (fun v => f (upd a x v)) (fun v => g (upd a x v))); now apply bnd_comp.
        + rewrite <- (me_scale w K M) by auto. apply me_ext. intros a. apply (law_scale Ld c (fun v => f (upd a x v))); now apply bnd_comp.
        + apply (me_pos w K M); auto. intros a. apply (law_pos Ld (fun v => f (upd a x v))); [now apply bnd_comp|auto].
      - rewrite E1. rewrite (me_ext w K _ (fun _ => 1)); [exact Mass|]. intros a. apply (law_one Ld). }
    set (e := supp_event x supp).
    set (K2 := if cond then restrict K1 (holds e) else K1).
    assert (Numb : dlaw d (ind (fun v => ~ is_num v)) = 0) by (apply (law_full Ld), (d_num _ _ _ Dk)).
    assert (E2 : forall f w, bnd f -> K2 f w = K (fun a => real_law dlaw d supp cond (fun v => f (upd a x v))) w).
    { intros f w Hf. unfold K2, real_law. destruct cond; [|apply E1]. unfold restrict. rewrite !E1. destruct (Fk w) as (M & Mass).
      set (P := dlaw d (ind (in_iv supp))) in *.
      assert (I1 : forall a : asg, dlaw d (fun v => f (upd a x v) * ind (holds e) (upd a x v)) = dlaw d (fun v => f (upd a x v) * ind (in_iv supp) v)).
      { intros a. apply (law_as Ld _ _ _ Numb); [apply bnd_mult; [now apply bnd_comp|apply (bnd_comp _ _ (fun v => upd a x v)); auto with bnd]|apply bnd_mult; [now apply bnd_comp|auto with bnd]|].
        intros v Hv. apply NNPP in Hv. f_equal. apply ind_eq. now apply supp_holds. }
      assert (I2 : forall a : asg, dlaw d (fun v => ind (holds e) (upd a x v)) = P).
      { intros a. apply (law_as Ld _ _ _ Numb); [apply (bnd_comp _ _ (fun v => upd a x v)); auto with bnd|auto with bnd|]. intros v Hv. apply NNPP in Hv. apply ind_eq. now apply supp_holds. }
      rewrite (me_ext w K (fun a => dlaw d (fun v => ind (holds e) (upd a x v))) (fun a => P * (fun _ => 1) a)) by (intro a; rewrite I2; ring). rewrite (me_scale w K M) by auto with bnd.
      rewrite (me_ext w K (fun a => dlaw d (fun v => f (upd a x v) * ind (holds e) (upd a x v))) (fun a => dlaw d (fun v => f (upd a x v) * ind (in_iv supp) v))) by auto.
      assert (Bg : bnd (fun a : asg => dlaw d (fun v => f (upd a x v) * ind (in_iv supp) v))).
      { destruct Hf as (M0 & Hf). exists M0. intros a. apply (law_bound Ld). intros v. rewrite Rabs_mult. pose proof (ind_01 _ (in_iv supp) v) as H01. rewrite (Rabs_right (ind (in_iv supp) v)) by lra. specialize (Hf (upd a x v)). pose proof (Rabs_pos (f (upd a x v))). nra. }
      rewrite (me_ext w K (fun a => dlaw d (fun v => f (upd a x v) * ind (in_iv supp) v) / P) (fun a => / P * (fun a => dlaw d (fun v => f (upd a x v) * ind (in_iv supp) v)) a)) by (intro a; cbv beta; field; lra).
      rewrite (me_scale w K M) by auto. destruct Mass as [Ms|Ms].
      - rewrite Ms. field. lra.
      - rewrite (fair_null K w _ Fk Ms Bg). unfold Rdiv. ring. }
    assert (F2' : fair K2) by (unfold K2; destruct cond; auto; now apply fair_restrict).
    assert (S2 : sure K2 (fun a => consistent ((x, TId x) :: env') (derive env' a))).
    { intros w. rewrite E2 by auto with bnd. destruct (Fk w) as (M & _). rewrite (me_ext w K _ (fun a => 0 * (fun _ => 0) a)); [rewrite (me_scale w K M) by auto with bnd; ring|]. intros a. rewrite Rmult_0_l.
      pose proof (real_law_law dlaw d supp cond Ld Pc) as Lr. specialize (Su a). cbn [SpeSpec.den] in Su. apply (law_null_sub Lr (fun v => ~ env_fine ((x, TId x) :: env') (place x ((x, TId x) :: env') a v))).
      - rewrite <- Su. f_equal.
      - intros v Hv Hf. apply Hv. destruct Hf as (C & _). unfold place in C. cbn [derive teval value_or] in C. revert C. rewrite upd_here. rewrite upd_upd. auto. }
    destruct (transforms_ok x _ B G Nom env' ts [] K2 (fun z => V z \/ z = x) W) as (Ft & Mt); auto.
    { intros z. rewrite Hw. cbn [map fst In]. intuition auto. }
    assert (Fs : fits (Sample x (real_dist disc d supp0)) V K (fun z => V z \/ z = x)).
    { apply (fits_sample dlaw nominal x _ l0); [exact Er| |tauto]. split; [|split].
      - unfold l0. split; [exact Ws0|]. split; [exact Wd0|]. split; [exact Dk|]. split; [exact P0|]. split.
        + split; [constructor|]. intros y t L. cbn [base_env Trans.lookup] in L. destruct (String.eqb y x); [|discriminate]. injection L as <-. split; exact Logic.I.
        + intros w. cbn [SpeSpec.den]. unfold real_law. apply law_zero; auto. intros v. apply ind_false. intros K'. apply K'. rewrite base_place. split.
          * intros y t L. cbn [base_env Trans.lookup] in L. destruct (String.eqb_spec y x) as [->|]; [|discriminate]. injection L as <-. reflexivity.
          * intros y t L. cbn [base_env Trans.lookup] in L. destruct (String.eqb y x); [|discriminate]. injection L as <-. exact Logic.I.
      - cbn. split; [|exact Logic.I]. intros y [<-|[]]. apply Nom. now left.
      - intros z. cbn. intuition auto. }
    assert (El : forall f w, bnd f -> K2 (fun a => f (derive env' a)) w = K (den (RealLeaf disc x d supp cond ((x, TId x) :: env')) f) w).
    { intros f w Hf. rewrite E2 by now apply bnd_comp. apply me_ext. intros a. cbn [SpeSpec.den]. f_equal. extensionality v. unfold place. cbn [derive teval value_or]. rewrite upd_here. now rewrite upd_upd. }
    unfold cs, K2 in *. destruct cond; cbn [app].
    - split.
      + eapply fits_cons; [exact Fs|]. eapply fits_cons; [|exact Ft]. apply fits_condition.
        * split; [|split; [|split]].
          -- split; [|reflexivity]. cbn. split; [exact Logic.I|]. split; [exact Logic.I|]. split; [exact Wi|]. eauto.
          -- constructor; [|constructor]. exists x. intros y [<-|[]]. reflexivity.
          -- constructor; [|constructor]. left. split; [|intros y [<-|[]]; apply Nom; now left]. exact Logic.I.
          -- intros y [<-|[]]. now right.
        * apply (sure_all K1 _ F1). intros a. cbn. split; [exact Logic.I|]. intros; discriminate.
      + intros f w Hf. rewrite <- El by auto. exact (Mt f w).
    - split.
      + eapply fits_cons; [exact Fs|exact Ft].
      + intros f w Hf. rewrite <- El by auto. exact (Mt f w).
  Qed.

  (** ** Branches *)
  Lemma firsts_apart : forall B (l : list ((asg -> Prop) * B)), ForallOrdPairs (fun p q => forall a, ~ (fst p a /\ fst q a)) l -> firsts l = l.
  Proof.
    induction 1 as [|p l F H IH]; [reflexivity|]. cbn [firsts]. rewrite IH. f_equal. transitivity (map (fun q => q) l); [|apply map_id]. apply map_ext_in. intros (Q, b) Hq. cbn [fst snd]. f_equal. extensionality a. apply propositional_extensionality.
    rewrite Forall_forall in F. specialize (F _ Hq a). cbn [fst] in F. tauto.
  Qed.
  Lemma test_bv : forall v i, test (Some (bv_event (N:=N) v i)) = picked v i.
  Proof. intros v i. extensionality a. apply propositional_extensionality. apply bv_holds. Qed.
  Lemma cases_tests : forall v i k l cs K bs, coded_cases v i k l cs K bs -> map (fun b => test (fst b)) cs = map (picked v) (seq i (List.length l)).
  Proof.
    intros v i k l. revert i k. induction l as [|c l IH]; intros i k cs K bs C; inversion C; subst; [reflexivity|]. cbn [map fst List.length seq]. rewrite test_bv. f_equal. eapply IH; eauto.
  Qed.
  Lemma cases_apart : forall v i k l cs K bs, coded_cases v i k l cs K bs -> forall B (h : option tr * command -> B), ForallOrdPairs (fun p q : (asg -> Prop) * B => forall a, ~ (fst p a /\ fst q a)) (map (fun b => (test (fst b), h b)) cs).
  Proof.
    intros v i k l. revert i k. induction l as [|c l IH]; intros i k cs K bs C B h; inversion C as [|? ? ? ? ? ? ? ds ? ? ? ? ? ? C2]; subst; [constructor|]. cbn [map fst]. constructor; [|eapply IH; eauto]. apply Forall_forall. intros (Q, b) Hq a. cbn [fst]. rewrite test_bv.
    apply in_map_iff in Hq. destruct Hq as (q & [= <- <-] & Hq). apply (in_map (fun b => test (fst b))) in Hq. rewrite (cases_tests _ _ _ _ _ _ _ C2) in Hq. apply in_map_iff in Hq. destruct Hq as (m & Em & Hm). apply in_seq in Hm. rewrite <- Em.
    unfold picked. intros (A1 & A2). rewrite A1 in A2. injection A2 as A2. apply nat_text_inj in A2. lia.
  Qed.
  Lemma bv_guard : forall (V : string -> Prop) v i, V v -> nominal v = true -> guard nominal V (bv_event (N:=N) v i).
  Proof.
    intros V v i Hv Nv. split; [split; [|split; [|split]]|].
    - split; [|reflexivity]. cbn. split; [exact Logic.I|]. split; [exact Logic.I|]. split.
      + split; [repeat constructor; intros []|]. left. discriminate.
      + right. exact Logic.I.
    - constructor; [|constructor]. exists v. intros y [<-|[]]. reflexivity.
    - constructor; [|constructor]. right. eexists _, _, _. split; [reflexivity|]. auto.
    - intros y [<-|[]]. exact Hv.
    - constructor; [exact Logic.I|constructor].
  Qed.

  Theorem coded_fits :
    (forall k s cs T bs, coded k s cs T bs -> forall K (V W : string -> Prop), fair K -> sure K (in_range bs) -> (forall x, In x (map fst bs) -> V x) -> (forall z, W z <-> V z \/ vars s z) ->
       fits (Sequence cs) V K W /\ forall f w, bnd f -> meaning (Sequence cs) K f w = K (T f) w) /\
    (forall k l cs T bs, coded_all k l cs T bs -> forall K (V W : string -> Prop), fair K -> sure K (in_range bs) -> (forall x, In x (map fst bs) -> V x) -> (forall z, W z <-> V z \/ pvars l z) ->
       fits (Sequence cs) V K W /\ forall f w, bnd f -> meaning (Sequence cs) K f w = K (T f) w) /\
    (forall v i k l cs T bs, coded_cases v i k l cs T bs -> forall K (V W : string -> Prop), fair K -> sure K (in_range bs) -> (forall x, In x (map fst bs) -> V x) -> (forall c, In c l -> forall z, W z <-> V z \/ vars (fst c) z) ->
       (forall P c, In (P, c) (map (fun b => (test (fst b), snd b)) cs) -> fits c V (restrict K P) W) /\
       forall f w, bnd f -> sumR (map (fun b => K (ind (test (fst b))) w * meaning (snd b) (restrict K (test (fst b))) f w) cs) = K (T f) w).
  Proof.
    apply coded_mut; intros; auto.
    - (* nominal *)
      pose proof (choice_ok x ws H) as Ec. split.
      + apply one_fits. apply (fits_sample dlaw nominal x _ (NominalLeaf x ws)); [exact Ec| |intros z; rewrite H5; cbn; intuition auto]. split; [exact H|]. split; [split; [exact H0|exact Logic.I]|]. intros z. cbn. intuition auto.
      + intros f w Hf. cbn [ProgSpec.meaning fold_left]. rewrite Ec. reflexivity.
    - (* real *)
      apply (real_leaf_ok disc x d supp cond env supp0 ts); auto. intros y Hy. now apply H0.
    - (* sum *)
      rename K into T, K0 into K. set (v := branch_var k) in *.
      assert (Vv : V v) by (apply H4; now left).
      destruct (H1 K V W) as (F & M); auto.
      { apply (sure_weak K _ _ H2 H3). intros a Ha. now inversion Ha. }
      { intros x Hx. apply H4. now right. }
      { intros c Hc z. rewrite H5. rewrite (sum_vars dlaw l c H Hc z). reflexivity. }
      pose proof (cases_apart _ _ _ _ _ _ _ H0) as Ap.
      split.
      + apply one_fits. apply fits_if.
        * intros e He. apply in_map_iff in He. destruct He as (b & Eb & Hb).
          assert (Ev : exists m, e = bv_event v m).
          { clear -H0 Eb Hb. revert H0 Hb. generalize 0%nat (1 + k)%nat. intros i j C. revert C. revert i j cs T bs. induction l as [|c l IH]; intros i j cs T bs C Hb; inversion C; subst; [destruct Hb|]. destruct Hb as [<-|Hb]; [injection Eb as <-; eauto|]. eapply IH; eauto. }
          destruct Ev as (m & ->). split; [apply bv_guard; [exact Vv|apply Hn]|]. split.
          -- apply (sure_all K _ H2). intros a. cbn. split; [exact Logic.I|auto].
          -- apply (sure_weak K _ _ H2 H3). intros a Ha. inversion Ha as [|? ? (p & _ & Ea) _]; subst. cbn [fst] in Ea. cbn [bv_event teval]. fold v. rewrite Ea. unfold truth. destruct (dec _); discriminate.
        * apply (sure_weak K _ _ H2 H3). intros a Ha. inversion Ha as [|? ? (p & Hp & Ea) _]; subst. cbn [fst snd] in *. destruct (range_keys _ _ Hp) as (m & Em & Hm). rewrite map_length in Hm. rewrite Em in Ea.
          assert (Hin : In (picked v m) (map (fun b => test (fst b)) cs)) by (rewrite (cases_tests _ _ _ _ _ _ _ H0); apply in_map, in_seq; lia).
          apply in_map_iff in Hin. destruct Hin as (b & Eb & Hb). exists b. split; auto. rewrite Eb. exact Ea.
        * rewrite (firsts_apart _ _ (Ap _ snd)). intros P c Hc _. apply F. exact Hc.
      + intros f w Hf. cbn [ProgSpec.meaning fold_left]. unfold total. rewrite (firsts_apart _ _ (Ap _ (fun b => meaning (snd b)))), map_map. cbn [fst snd]. apply M. exact Hf.
    - (* nil *)
      split; [|reflexivity]. apply (fits_same _ V K V); [constructor|]. intros z. rewrite H2. cbn. tauto.
    - (* cons *)
      rename K into T, K0 into K.
      pose proof (proj1 (proj2 (coded_names dlaw nominal lexp)) _ _ _ _ _ H1) as N2. pose proof (proj1 (coded_tame dlaw nominal lexp) _ _ _ _ _ H) as T1.
      assert (S1 : sure K (in_range bs)) by (apply (sure_weak K _ _ H3 H4); intros a Ha; now apply Forall_app in Ha).
      assert (S2 : sure K (in_range es)) by (apply (sure_weak K _ _ H3 H4); intros a Ha; now apply Forall_app in Ha).
      destruct (H0 K V (fun z => V z \/ vars c z)) as (F1 & M1); auto; [intros x Hx; apply H5; rewrite map_app; apply in_or_app; auto|tauto|].
      assert (Fk : fair (meaning (Sequence cs) K)).
      { apply (fair_agree (fun f => K (T f))); [|exact M1]. intros w. destruct (H3 w) as (M & Mass). split.
        - constructor; intros.
          + rewrite <- (me_plus w K M) by now apply (ta_bnd _ _ _ T1). apply me_ext. intros a. now apply (ta_plus _ _ _ T1).
          + rewrite <- (me_scale w K M) by now apply (ta_bnd _ _ _ T1). apply me_ext. intros a. now apply (ta_scale _ _ _ T1).
          + apply (me_pos w K M); [now apply (ta_bnd _ _ _ T1)|]. intros a. now apply (ta_pos _ _ _ T1).
        - replace (K (T (fun _ => 1)) w) with (K (fun _ => 1) w); [exact Mass|]. apply (me_as w K M _ _ _ (S1 w)); auto with bnd; [apply (ta_bnd _ _ _ T1); auto with bnd|].
          intros a Ha. apply NNPP in Ha. symmetry. now apply (proj1 coded_total _ _ _ _ _ H). }
      destruct (H2 (meaning (Sequence cs) K) (fun z => V z \/ vars c z) W) as (F2 & M2); auto.
      { intros w. rewrite M1 by auto with bnd. apply (sure_null K (in_range es) _ w H3 S2); [apply (ta_bnd _ _ _ T1); auto with bnd|]. intros a Ha.
        transitivity (T (fun b => 0 * (fun _ => 0) b) a); [|rewrite (ta_scale _ _ _ T1) by auto with bnd; ring]. apply (ta_reach _ _ _ T1). intros b Hb. rewrite Rmult_0_l. apply ind_false. intros K'. apply K'. eapply range_out; eauto. }
      { intros x Hx. left. apply H5. rewrite map_app. apply in_or_app. auto. }
      { intros z. rewrite H6, pvars_cons. tauto. }
      split; [eapply fits_app; eauto|]. intros f w Hf. rewrite meaning_app, M2 by auto. rewrite M1; auto. apply (ta_bnd _ _ _ (proj1 (proj2 (coded_tame dlaw nominal lexp)) _ _ _ _ _ H1)). auto.
    - (* no case *)
      split; [intros P c []|]. intros f w Hf. cbn. destruct (H w) as (M & _). rewrite (me_ext w K _ (fun a => 0 * (fun _ => 0) a)); [rewrite (me_scale w K M) by auto with bnd; ring|]. intros a. ring.
    - (* case *)
      rename K into T, K0 into K.
      pose proof (proj1 (coded_tame dlaw nominal lexp) _ _ _ _ _ H) as T1.
      assert (S1 : sure K (in_range bs)) by (apply (sure_weak K _ _ H4 H5); intros a Ha; now apply Forall_app in Ha).
      assert (S2 : sure K (in_range es)) by (apply (sure_weak K _ _ H4 H5); intros a Ha; now apply Forall_app in Ha).
      destruct (H3 K V W) as (F2 & M2); auto; [intros x Hx; apply H6; rewrite map_app; apply in_or_app; auto|intros d Hd; apply H7; now right|].
      destruct (H0 (restrict K (picked v i)) V W) as (F1 & M1); [now apply fair_restrict|now apply sure_restrict|intros x Hx; apply H6; rewrite map_app; apply in_or_app; auto|apply H7; now left|].
      split.
      + intros P d [E|Hd]; [|now apply F2]. cbn [fst snd] in E. injection E as <- <-. rewrite test_bv. destruct H1 as [->| ->]; [exact F1|now apply fits_one].
      + intros f w Hf. cbn [map fst snd]. change (sumR (?a :: ?l)) with (a + sumR l). rewrite M2 by auto. rewrite test_bv.
        assert (Bt : bnd (T f)) by now apply (ta_bnd _ _ _ T1).
        assert (Bl : bnd (L f)).
        { eapply (ta_bnd _ _ _ (proj2 (proj2 (coded_tame dlaw nominal lexp)) _ _ _ _ _ _ _ H2 (fun _ => True) (fun _ _ _ _ => Logic.I) [])); auto. }
        destruct (H4 w) as (M & _). rewrite (me_plus w K M) by (auto with bnd). f_equal.
        assert (Em : meaning com (restrict K (picked v i)) f w = restrict K (picked v i) (T f) w) by (destruct H1 as [->| ->]; apply M1; auto). rewrite Em.
        destruct (Req_EM_T (K (ind (picked v i)) w) 0) as [Z|Z].
        * rewrite Z, Rmult_0_l. symmetry. apply (me_null w K M _ _ Z); auto with bnd. intros a Ha. rewrite (ind_false _ (picked v i)) by auto. ring.
        * unfold restrict. rewrite (me_ext w K (fun a => T f a * ind (picked v i) a) (fun a => ind (picked v i) a * T f a)) by (intro; ring). now field.
  Qed.
End Fits.
