(** The operators that build expressions keep the law. *)
From Coq Require Import List Bool String Reals Lra Lia ZArith QArith Qreals FunctionalExtensionality Permutation.
From Verif Require Import Base Num Sets SetSpec SetIv SetProofs SetOr SetOps SetAlg SetBuilt
  Poly Trans TransSpec TransFacts PolyProofs InvProofs InvMain EvProofs ArithProofs
  Dnf DnfSpec DnfProofs DnfUnion Logs Spe SpeSpec SpeFacts SpeRect LeafProofs LeafEvents LeafCond SpeCons LeafGiven SpeOps.
Import ListNotations.
Local Open Scope R_scope.

Section OpsProofs.
  Context {N : numsys} {S : logsys} {D : distsys N S} (io : iterorder N) (so : strorder) (po : polyoracle N) (fuel : nat).
  Context (dlaw : dist D -> (fval -> R) -> R).
  Notation spe := (spe D).
  Notation tr := (tr N).
  Notation den := (den dlaw).
  Notation wf_spe := (wf_spe dlaw).
  Notation wf_leaf := (wf_leaf dlaw).

  (** ** Sums are built whenever they make sense *)
  Lemma are_identical_true : forall a l, Forall (@NoDup string) (a :: l) -> (forall b x, In b l -> (In x b <-> In x a)) -> are_identical (a :: l) = Ok true.
  Proof.
    intros a l Nd H. unfold are_identical. f_equal. inversion Nd as [|? ? Na Nl]; subst.
    assert (F : filter (fun x => forallb (inb String.eqb x) l) a = a).
    { assert (G : forall m (p : string -> bool), (forall x, In x m -> p x = true) -> filter p m = m) by (induction m as [|y m IH]; intros p Hp; auto; cbn [filter]; rewrite Hp by (now left); f_equal; apply IH; intros; apply Hp; now right).
      apply G. intros x Hx. apply forallb_forall. intros b Hb. apply inb_string. now apply H. }
    rewrite F. apply forallb_forall. intros b [<-|Hb]; [apply Nat.eqb_refl|]. apply Nat.eqb_eq. rewrite Forall_forall in Nl. apply Permutation_length. apply NoDup_Permutation; auto.
  Qed.
  Lemma sum_terms_src : forall (cs : list spe) (ws : list (lg S)) d, In d (List.concat (map (fun p => sum_terms (fst p) (snd p)) (combine cs ws))) ->
    exists c w, In c cs /\ In d (sum_terms c w).
  Proof.
    intros cs ws d H. apply in_concat in H. destruct H as (m & Hm & Hd). apply in_map_iff in Hm. destruct Hm as ((c, w) & <- & Hp). exists c, w. split; auto. now apply in_combine_l in Hp.
  Qed.
  Theorem mk_Sum_total : forall cs (ws : list (lg S)), cs <> [] -> List.length cs = List.length ws -> Forall wf_spe cs -> sumR (map toP ws) = 1 ->
    (forall c d x, In c cs -> In d cs -> vars c x -> vars d x) -> exists t, mk_Sum cs ws = Ok t.
  Proof.
    intros cs ws Ne Len W T V. unfold mk_Sum. rewrite Len, Nat.eqb_refl. cbn [passert bind].
    destruct (lse_ok S ws) as (r & Er & Pr). { intros ->. destruct cs; [tauto|discriminate]. } rewrite Er. cbn [bind]. rewrite (lclose_ok S r lzero) by (rewrite Pr, T; symmetry; apply lzero_ok). cbn [passert bind].
    set (l := List.concat _). rewrite Forall_forall in W.
    assert (Wl : forall d, In d l -> wf_spe (fst d) /\ exists c, In c cs /\ forall x, vars (fst d) x <-> vars c x).
    { intros d Hd. apply sum_terms_src in Hd. destruct Hd as (c & w & Hc & Hd). destruct (sum_terms_wf dlaw c w (W c Hc)) as (_ & K). destruct (K d Hd) as (K1 & K2). split; auto. exists c. auto. }
    assert (Nl : l <> []).
    { destruct cs as [|c cs]; [tauto|]. destruct ws as [|w ws]; [discriminate|]. intros E. unfold l in E. cbn [combine map List.concat fst snd] in E. apply app_eq_nil in E. destruct E as (E & _).
      now apply (proj1 (sum_terms_wf dlaw c w (W c (or_introl eq_refl)))). }
    destruct l as [|d l]; [tauto|]. cbn [map]. rewrite are_identical_true; [cbn [bind]; eauto| |].
    - change (get_symbols (fst d) :: map (fun c => get_symbols (fst c)) l) with (map (fun c : spe * lg S => get_symbols (fst c)) (d :: l)). apply Forall_forall. intros s Hs. apply in_map_iff in Hs. destruct Hs as (e & <- & He). apply (get_symbols_nodup dlaw). now apply Wl.
    - intros b x Hb. apply in_map_iff in Hb. destruct Hb as (e & <- & He). rewrite !(get_symbols_vars dlaw). destruct (Wl d (or_introl eq_refl)) as (_ & c1 & H1 & V1). destruct (Wl e (or_intror He)) as (_ & c2 & H2 & V2). rewrite V1, V2. split; apply V; auto.
  Qed.
  (** a sum none of whose children is a sum *)
  Definition flat (s : spe) : Prop := match s with SumSPE l => forall c, In c l -> match fst c with SumSPE _ => False | _ => True end | _ => True end.
  Lemma mk_Sum_flat : forall cs (ws : list (lg S)) t, Forall flat cs -> mk_Sum cs ws = Ok t -> flat t.
  Proof.
    intros cs ws t F H. unfold mk_Sum in H. inv_bind H. inv_bind H. inv_bind H. inv_bind H. destruct r2; [|discriminate]. injection H as <-. intros d Hd. apply sum_terms_src in Hd. destruct Hd as (c & w & Hc & Hd).
    rewrite Forall_forall in F. specialize (F c Hc). unfold sum_terms in Hd. destruct c as [| | |l|]; try (destruct Hd as [<-|[]]; exact Logic.I).
    apply in_map_iff in Hd. destruct Hd as (e & <- & He). cbn [fst]. now apply F.
  Qed.
  (** a product none of whose children is a product *)
  Definition pflat (s : spe) : Prop := match s with ProductSPE l => forall c, In c l -> match c with ProductSPE _ => False | _ => True end | _ => True end.
  Lemma mk_Product_flat : forall cs t, Forall pflat cs -> mk_Product cs = Ok t -> pflat t.
  Proof.
    intros cs t F H. unfold mk_Product in H. inv_bind H. destruct r; [|discriminate]. injection H as <-. intros d Hd. apply in_concat in Hd. destruct Hd as (m & Hm & Hd). apply in_map_iff in Hm. destruct Hm as (c & <- & Hc).
    rewrite Forall_forall in F. specialize (F c Hc). destruct c as [| | | |l]; cbn [prod_terms] in Hd; try (destruct Hd as [<-|[]]; exact Logic.I). now apply F.
  Qed.
  Lemma nodup_disjoint : forall l, l <> [] -> NoDup (List.concat l) -> are_disjoint l = Ok true.
  Proof.
    intros [|a l] Ne H; [tauto|]. unfold are_disjoint. f_equal. apply Nat.eqb_eq. rewrite <- concat_length. unfold sunions. f_equal. clear Ne.
    revert H. generalize (List.concat (a :: l)). intros m. induction m as [|x m IH]; intros H; auto. inversion H; subst. cbn [dedup]. destruct (inb String.eqb x m) eqn:E; [apply inb_string in E; tauto|]. f_equal. auto.
  Qed.
  Lemma nodup_concat_intro : forall A (l : list (list A)), (forall a, In a l -> NoDup a) -> ForallOrdPairs (fun a b => forall x, In x a -> In x b -> False) l -> NoDup (List.concat l).
  Proof.
    induction l as [|a l IH]; intros Nd F; [constructor|]. inversion F as [|? ? Fa Fl]; subst. cbn [List.concat]. rewrite Forall_forall in Fa.
    assert (Na : NoDup a) by (apply Nd; now left). assert (Nl : NoDup (List.concat l)) by (apply IH; auto; intros; apply Nd; now right).
    assert (Dj : forall x, In x a -> ~ In x (List.concat l)). { intros x Ha Hx. apply in_concat in Hx. destruct Hx as (b & Hb & Hx). exact (Fa b Hb x Ha Hx). }
    clear -Na Nl Dj. induction Na as [|x a Hx Na IHa]; auto. cbn [app]. constructor.
    - rewrite in_app_iff. intros [K|K]; [auto|]. apply (Dj x); auto. now left.
    - apply IHa. intros y Hy. apply Dj. now right.
  Qed.
  Theorem mk_Product_total : forall cs, cs <> [] -> Forall wf_spe cs -> ForallOrdPairs (apart (D:=D)) cs -> exists t, mk_Product cs = Ok t.
  Proof.
    intros cs Ne W Ap. unfold mk_Product. rewrite Forall_forall in W. assert (K : exists c m, List.concat (map prod_terms cs) = c :: m).
    { destruct cs as [|c cs]; [tauto|]. cbn [map List.concat]. destruct (prod_terms_wf dlaw c (W c (or_introl eq_refl))) as (Nc & _ & _). destruct (prod_terms c); [tauto|]. cbn [app]. eauto. }
    rewrite nodup_disjoint; [cbn [bind]; eauto| |].
    - destruct K as (c & m & ->). discriminate.
    - apply nodup_concat_intro.
      + intros a Ha. apply in_map_iff in Ha. destruct Ha as (d & <- & Hd). apply (get_symbols_nodup dlaw). apply in_concat in Hd. destruct Hd as (m & Hm & Hd). apply in_map_iff in Hm. destruct Hm as (c & <- & Hc).
        destruct (prod_terms_wf dlaw c (W c Hc)) as (_ & A & _). exact (All_In _ _ _ d A Hd).
      + clear Ne K. induction cs as [|c cs IH]; [constructor|]. inversion Ap as [|? ? Ac Al]; subst. cbn [map List.concat]. rewrite map_app.
        assert (H2 : ForallOrdPairs (fun a b => forall x : string, In x a -> In x b -> False) (map get_symbols (List.concat (map (prod_terms (D:=D)) cs)))) by (apply IH; auto; intros; apply W; now right).
        assert (Wc := W c (or_introl eq_refl)).
        assert (H1 : ForallOrdPairs (fun a b => forall x : string, In x a -> In x b -> False) (map get_symbols (prod_terms c))).
        { destruct c as [| | | |l]; cbn [prod_terms]; try (cbn [map]; repeat constructor). destruct Wc as (_ & _ & Al'). clear -Al' dlaw. induction Al' as [|c l H A IH]; cbn [map]; constructor; auto.
          apply Forall_forall. intros b Hb x Hx Hy. apply in_map_iff in Hb. destruct Hb as (d & <- & Hd). rewrite Forall_forall in H. apply (H d Hd x); now apply (get_symbols_vars dlaw). }
        assert (H3 : forall a b, In a (map get_symbols (prod_terms c)) -> In b (map get_symbols (List.concat (map (prod_terms (D:=D)) cs))) -> forall x : string, In x a -> In x b -> False).
        { intros a b Ha Hb x Hx Hy. apply in_map_iff in Ha. destruct Ha as (a' & <- & Ha). apply in_map_iff in Hb. destruct Hb as (b' & <- & Hb). apply in_concat in Hb. destruct Hb as (m & Hm & Hb). apply in_map_iff in Hm. destruct Hm as (d & <- & Hd).
          rewrite Forall_forall in Ac. apply (Ac d Hd x).
          - apply (prod_terms_wf dlaw c Wc). exists a'. split; auto. now apply (get_symbols_vars dlaw).
          - apply (prod_terms_wf dlaw d (W d (or_intror Hd))). exists b'. split; auto. now apply (get_symbols_vars dlaw). }
        clear -H1 H2 H3. induction H1 as [|a l Ha Hl IHl]; auto. cbn [app]. constructor.
        * apply Forall_app. split; auto. apply Forall_forall. intros b Hb. apply H3; auto. now left.
        * apply IHl. intros b c0 Hb Hc0. apply H3; auto. now right.
  Qed.

  (** ** x * s | y * t | ... *)
  Lemma Qsum_app : forall a b, (Qsum (a ++ b) == Qsum a + Qsum b)%Q.
  Proof. unfold Qsum. induction a as [|x a IH]; intros b; cbn [app fold_right]; [symmetry; apply Qplus_0_l|]. rewrite IH. apply Qplus_assoc. Qed.
  Lemma Qnn_plus : forall a b, (0 <= a)%Q -> (0 <= b)%Q -> (0 <= a + b)%Q.
  Proof. intros a b Ha Hb. rewrite <- (Qplus_0_l 0). now apply Qplus_le_compat. Qed.
  Lemma Qpos_plus : forall a b, (0 < a)%Q -> (0 <= b)%Q -> (0 < a + b)%Q.
  Proof. intros a b Ha Hb. rewrite <- (Qplus_0_l 0). now apply Qplus_lt_le_compat. Qed.
  Definition term_ok (t : Q * spe) : Prop := (0 < fst t < 1)%Q /\ wf_spe (snd t).
  Definition par_ok (p : partial (D:=D)) (ts : list (Q * spe)) : Prop := p_children p = map snd ts /\ p_weights p = map fst ts /\ (Qsum (map fst ts) < 1)%Q.
  Lemma Qle_bool_false : forall a b, Qle_bool a b = false -> (b < a)%Q.
  Proof. intros a b H. apply Qnot_le_lt. intros K. apply Qle_bool_iff in K. congruence. Qed.
  Lemma partial_inv : forall cs ws p, PartialSumSPE (D:=D) cs ws = Ok p -> p = mkPartial cs ws /\ (Qsum ws < 1)%Q.
  Proof.
    intros cs ws p H. unfold PartialSumSPE in H. inv_bind H. inv_bind H. destruct r0; [|discriminate]. injection H as <-. split; auto. apply Qle_bool_false. unfold passert in E. destruct (Qle_bool 1 (Qsum ws)); auto; discriminate.
  Qed.
  Lemma rmul_ok : forall q (s : spe) p, rmul q s = Ok p -> par_ok p [(q, s)] /\ (0 < q < 1)%Q.
  Proof.
    intros q s p H. unfold rmul in H. destruct (negb (Qle_bool q 0) && negb (Qle_bool 1 q)) eqn:E; [|discriminate]. apply andb_true_iff in E. destruct E as (E1 & E2). apply negb_true_iff in E1, E2. apply Qle_bool_false in E1, E2.
    apply partial_inv in H. destruct H as (-> & H). split; auto. split; auto.
  Qed.
  Definition mix_ok (a : partial + spe) (ts : list (Q * spe)) : Prop :=
    match a with
    | inl p => par_ok p ts
    | inr s => (Qsum (map fst ts) == 1)%Q /\ mk_Sum (map snd ts) (map (fun t => lofQ (fst t)) ts) = Ok s
    end.
  Lemma or_more_ok : forall a ts t b, mix_ok a ts -> or_more a t = Ok b -> mix_ok b (ts ++ [t]) /\ (0 < fst t < 1)%Q.
  Proof.
    intros a ts (q, s) b Ha H. unfold or_more in H. cbn [fst snd] in H. inv_bind H. apply rmul_ok in E. destruct E as ((C & W & _) & Q01). split; auto. destruct a as [p|u]; [|discriminate]. destruct Ha as (C' & W' & Lt).
    unfold partial_or in H. rewrite C, W, C', W' in H. cbn [map fst snd] in H.
    assert (E1 : map fst ts ++ [q] = map fst (ts ++ [(q, s)])) by (now rewrite map_app). assert (E2 : map snd ts ++ [s] = map snd (ts ++ [(q, s)])) by (now rewrite map_app). rewrite E1, E2 in H.
    destruct (Qeq_bool _ 1) eqn:E.
    - inv_bind H. injection H as <-. split; [now apply Qeq_bool_iff|]. rewrite map_map in E0. exact E0.
    - destruct (negb _) eqn:En in H; [|discriminate]. inv_bind H. injection H as <-. apply partial_inv in E0. destruct E0 as (-> & Lt'). split; auto.
  Qed.
  Lemma mixture_ok : forall t ts a, mixture t ts = Ok a -> mix_ok a (t :: ts) /\ Forall (fun t => 0 < fst t < 1)%Q (t :: ts).
  Proof.
    intros (q, s) ts a H. unfold mixture in H. inv_bind H. cbn [fst snd] in E. apply rmul_ok in E. destruct E as (P & Q01). assert (K : mix_ok (inl r) [(q, s)]) by exact P.
    assert (G : forall ts a0 l a, mix_ok a0 l -> Forall (fun t => 0 < fst t < 1)%Q l -> foldM (or_more (D:=D)) ts a0 = Ok a -> mix_ok a (l ++ ts) /\ Forall (fun t => 0 < fst t < 1)%Q (l ++ ts)).
    { induction ts0 as [|t ts0 IH]; intros a0 l a1 M0 F0 H0; cbn [foldM] in H0; [injection H0 as <-; rewrite app_nil_r; auto|]. inv_bind H0. destruct (or_more_ok _ _ _ _ M0 E) as (M1 & Qt).
      replace (l ++ t :: ts0) with ((l ++ [t]) ++ ts0) by (now rewrite <- app_assoc). apply (IH r0); auto. apply Forall_app. split; auto. }
    apply (G ts (inl r) [(q, s)] a); auto.
  Qed.
  Lemma Qsum_weights : forall ts : list (Q * spe), Forall (fun t => 0 < fst t < 1)%Q ts -> sumR (map toP (map (fun t => @lofQ S (fst t)) ts)) = Q2R (Qsum (map fst ts)).
  Proof.
    induction 1 as [|t ts Ht _ IH]; cbn [map sumR fold_right Qsum]; [unfold Q2R; cbn; lra|]. unfold Qsum in IH. rewrite Q2R_plus, <- IH, lofQ_ok by tauto. reflexivity.
  Qed.
  Theorem mixture_law : forall t ts s, Forall (fun t => wf_spe (snd t)) (t :: ts) -> mixture t ts = Ok (inr s) ->
    (Qsum (map fst (t :: ts)) == 1)%Q /\ wf_spe s /\ (forall c x, In c (t :: ts) -> (vars s x <-> vars (snd c) x)) /\
    forall f w, den s f w = sumR (map (fun c => Q2R (fst c) * den (snd c) f w) (t :: ts)).
  Proof.
    intros t ts s W H. apply mixture_ok in H. destruct H as ((T & M) & F). split; auto.
    assert (W' : Forall wf_spe (map snd (t :: ts))) by (apply Forall_map; exact W).
    assert (T1 : sumR (map toP (map (fun t => @lofQ S (fst t)) (t :: ts))) = 1). { rewrite Qsum_weights by auto. rewrite (Qeq_eqR _ _ T). unfold Q2R; cbn; lra. }
    destruct (mk_Sum_ok dlaw _ _ _ W' M T1) as (_ & Ws & _ & V & Dn). split; auto. split.
    - intros c x Hc. apply V. now apply in_map.
    - intros f w. rewrite Dn. clear -F. induction F as [|c l Hc F IH]; auto. cbn [map combine sumR fold_right fst snd]. unfold sumR in IH. rewrite IH. rewrite lofQ_ok by tauto. reflexivity.
  Qed.
  (** it is a sum exactly when the weights total 1 *)
  Theorem mixture_total : forall t ts, ts <> [] -> Forall (fun t => (0 < fst t)%Q /\ wf_spe (snd t)) (t :: ts) -> (Qsum (map fst (t :: ts)) == 1)%Q ->
    (forall c d x, In c (t :: ts) -> In d (t :: ts) -> vars (snd c) x -> vars (snd d) x) -> exists s, mixture t ts = Ok (inr s).
  Proof.
    intros t ts Ne F T V.
    assert (Pos : forall l : list (Q * spe), Forall (fun t => (0 < fst t)%Q /\ wf_spe (snd t)) l -> (0 <= Qsum (map fst l))%Q).
    { induction 1 as [|c l (Hc & _) _ IH]; cbn [map]; [apply Qle_refl|]. apply Qnn_plus; auto. now apply Qlt_le_weak. }
    assert (Bool_le : forall a b, (a < b)%Q -> Qle_bool b a = false). { intros a b H. destruct (Qle_bool b a) eqn:E; auto. apply Qle_bool_iff in E. apply Qle_not_lt in E. tauto. }
    assert (Ident : forall l, l <> [] -> incl l (t :: ts) -> are_identical (map get_symbols (map snd l)) = Ok true).
    { intros [|c l] Nl I; [tauto|]. cbn [map]. rewrite Forall_forall in F. apply are_identical_true.
      - change (get_symbols (snd c) :: map get_symbols (map snd l)) with (map get_symbols (map snd (c :: l))). rewrite map_map. apply Forall_forall. intros a Ha. apply in_map_iff in Ha. destruct Ha as (d & <- & Hd). apply (get_symbols_nodup dlaw). apply F. auto.
      - intros b x Hb. rewrite map_map in Hb. apply in_map_iff in Hb. destruct Hb as (d & <- & Hd). rewrite !(get_symbols_vars dlaw). split; apply V; apply I; try (now left); now right. }
    assert (Lt : forall l m, t :: ts = l ++ m -> m <> [] -> (Qsum (map fst l) < 1)%Q).
    { intros l m E Nm. rewrite E in T, F. rewrite map_app, Qsum_app in T. apply Forall_app in F. destruct F as (F1 & F2). destruct m as [|c m]; [tauto|]. inversion F2 as [|? ? (Hc & _) F3]; subst. apply Pos in F3.
      cbn [map Qsum fold_right] in T. rewrite <- T. rewrite <- (Qplus_0_r (Qsum (map fst l))) at 1. apply Qplus_lt_r. fold (Qsum (map fst m)). apply Qpos_plus; auto. }
    assert (Rm : forall c, In c (t :: ts) -> rmul (fst c) (snd c) = Ok (mkPartial [snd c] [fst c])).
    { intros (q, s) Hc. pose proof (proj1 (Forall_forall _ _) F _ Hc) as (Hq & _). cbn [fst snd] in *. unfold rmul.
      assert (Q1 : (q < 1)%Q).
      { apply in_split in Hc. destruct Hc as (l1 & l2 & E). rewrite E in T, F. apply Forall_app in F. destruct F as (F1 & F2). inversion F2 as [|? ? _ F3]; subst. rewrite map_app, Qsum_app in T. cbn [map Qsum fold_right fst] in T. fold (Qsum (map fst l2)) in T.
        pose proof (Pos _ F1) as P1. pose proof (Pos _ F3) as P2. assert (G : exists m, m <> [] /\ Forall (fun t => (0 < fst t)%Q /\ wf_spe (snd t)) m /\ (Qsum (map fst m) == Qsum (map fst l1) + Qsum (map fst l2))%Q).
        { exists (l1 ++ l2). split; [|split; [apply Forall_app; auto|rewrite map_app; apply Qsum_app]]. intros K. apply app_eq_nil in K. destruct K as (-> & ->). cbn [app] in E. injection E as _ ->. tauto. }
        destruct G as ([|g m] & Nm & Fm & Em); [tauto|]. inversion Fm as [|? ? (Hg & _) Fm']; subst. pose proof (Pos _ Fm') as Pm. cbn [map Qsum fold_right] in Em. fold (Qsum (map fst m)) in Em.
        rewrite <- T. setoid_replace (Qsum (map fst l1) + (q + Qsum (map fst l2)))%Q with (q + (fst g + Qsum (map fst m)))%Q by (rewrite Em; ring). rewrite <- (Qplus_0_r q) at 1. apply Qplus_lt_r. apply Qpos_plus; auto. }
      rewrite !Bool_le by auto. cbn [negb andb]. unfold PartialSumSPE. assert (E : Qsum [q] == q) by (cbn; ring). rewrite Bool_le by (now rewrite E). cbn [negb passert bind].
      pose proof (Ident [(q, s)]) as I. cbn [map snd] in I |- *. rewrite I; [reflexivity|discriminate|]. intros z [<-|[]]. exact Hc. }
    unfold mixture. rewrite Rm by (now left). cbn [bind].
    assert (G : forall m l, t :: ts = l ++ m -> l <> [] -> m <> [] -> exists s, foldM (or_more (D:=D)) m (inl (mkPartial (map snd l) (map fst l))) = Ok (inr s)).
    { induction m as [|c m IH]; intros l E Nl Nm; [tauto|]. cbn [foldM]. unfold or_more at 1. rewrite Rm by (rewrite E; apply in_app_iff; right; now left). cbn [bind]. unfold partial_or. cbn [p_weights p_children].
      assert (E1 : map fst l ++ [fst c] = map fst (l ++ [c])) by (now rewrite map_app). assert (E2 : map snd l ++ [snd c] = map snd (l ++ [c])) by (now rewrite map_app). rewrite E1, E2.
      assert (E3 : t :: ts = (l ++ [c]) ++ m) by (now rewrite <- app_assoc). destruct m as [|d m].
      - rewrite app_nil_r in E3. rewrite <- E3. rewrite (proj2 (Qeq_bool_iff _ _) T). destruct (mk_Sum_total (map snd (t :: ts)) (map lofQ (map fst (t :: ts)))) as (s & Es).
        + discriminate.
        + now rewrite !map_length.
        + apply Forall_map. eapply Forall_impl; [|exact F]. intros a Ha. apply Ha.
        + rewrite (map_map fst (@lofQ S)). assert (F' : Forall (fun t => 0 < fst t < 1)%Q (t :: ts)).
          { apply Forall_forall. intros z Hz. pose proof (Rm z Hz) as Rz. apply rmul_ok in Rz. tauto. }
          rewrite Qsum_weights by auto. rewrite (Qeq_eqR _ _ T). unfold Q2R; cbn; lra.
        + intros a b x Ha Hb. apply in_map_iff in Ha, Hb. destruct Ha as (a' & <- & Ha). destruct Hb as (b' & <- & Hb). now apply V.
        + rewrite Es. cbn [bind foldM]. eauto.
      - assert (L1 : (Qsum (map fst (l ++ [c])) < 1)%Q) by (apply (Lt _ (d :: m)); auto; discriminate).
        destruct (Qeq_bool (Qsum (map fst (l ++ [c]))) 1) eqn:Eq. { apply Qeq_bool_iff in Eq. rewrite Eq in L1. now apply Qlt_irrefl in L1. }
        rewrite Bool_le by auto. cbn [negb]. unfold PartialSumSPE. rewrite Bool_le by auto. cbn [negb passert bind]. rewrite Ident; [cbn [bind]|destruct l; discriminate|].
        + apply IH; auto; [destruct l; discriminate|discriminate].
        + intros z Hz. rewrite E3. apply in_app_iff. auto. }
    exact (G ts [t] eq_refl ltac:(discriminate) Ne).
  Qed.
End OpsProofs.
