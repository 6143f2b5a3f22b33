(** The constructors of sums and products: what they build represents the mixture and the
    product of the children, and the checks they make are enough. *)
From Coq Require Import List Bool String Reals Lra Lia ZArith QArith Qreals FunctionalExtensionality Permutation.
From Verif Require Import Base Num Sets SetSpec SetProofs Poly Trans TransSpec TransFacts InvProofs InvMain EvProofs ArithProofs
  Dnf DnfSpec DnfProofs Logs Spe SpeSpec SpeFacts SpeRect LeafProofs LeafEvents LeafCond.
Import ListNotations.
Local Open Scope R_scope.

Section Cons.
  Context {N : numsys} {S : logsys} {D : distsys N S} (dlaw : dist D -> (fval -> R) -> R).
  Notation spe := (spe D).
  Notation den := (den dlaw).
  Notation wf_spe := (wf_spe dlaw).
  Notation wf_leaf := (wf_leaf dlaw).

  (** get_symbols lists the variables *)
  Lemma any_in : forall A (P : A -> Prop) l, Any P l <-> exists a, In a l /\ P a.
  Proof.
    induction l as [|a l IH]; simpl; [split; [tauto|intros (a & [] & _)]|]. rewrite IH. split.
    - intros [H|(b & Hb & H)]; eauto.
    - intros (b & [<-|Hb] & H); eauto.
  Qed.
  Lemma get_symbols_vars : forall (s : spe) x, In x (get_symbols s) <-> vars s x.
  Proof.
    induction s using spe_ind'; intros y; cbn [get_symbols vars].
    - tauto.
    - tauto.
    - simpl. tauto.
    - destruct l as [|c l]; [simpl; tauto|]. apply H. now left.
    - rewrite in_sunions, any_in. split.
      + intros (m & Hm & Hy). apply in_map_iff in Hm. destruct Hm as (c & <- & Hc). exists c. split; auto. now apply H.
      + intros (c & Hc & Hy). exists (get_symbols c). split; [now apply in_map|]. now apply H.
  Qed.
  Lemma built_nodup : forall X env, env_built (N:=N) X env -> NoDup (map fst env).
  Proof.
    intros X env B. induction B as [|env y t B IH Fr Sy]; [repeat constructor; auto|]. rewrite map_app. simpl. apply (Permutation_NoDup (l := y :: map fst env)); [apply Permutation_cons_append|]. now constructor.
  Qed.
  Lemma sunions_nodup : forall l, NoDup (sunions l).
  Proof.
    intros l. unfold sunions. apply dedup_string_NoDup.
  Qed.
  Lemma get_symbols_nodup : forall s : spe, wf_spe s -> NoDup (get_symbols s).
  Proof.
    induction s using spe_ind'; intros W; cbn [get_symbols].
    - apply (built_nodup x). apply W.
    - apply (built_nodup x). apply W.
    - repeat constructor. auto.
    - destruct l as [|c l]; [constructor|]. apply H; [now left|]. apply W.
    - apply sunions_nodup.
  Qed.

  (** ** Sums *)
  Lemma filter_le : forall A (f : A -> bool) l, (List.length (filter f l) <= List.length l)%nat.
  Proof. induction l as [|a l IH]; simpl; auto. destruct (f a); simpl; lia. Qed.
  Lemma filter_full : forall A (f : A -> bool) l, List.length (filter f l) = List.length l -> forall a, In a l -> f a = true.
  Proof.
    induction l as [|b l IH]; intros H a Ha; [destruct Ha|]. simpl in H. destruct (f b) eqn:E.
    - simpl in H. destruct Ha as [<-|Ha]; auto.
    - exfalso. assert (K := filter_le _ f l). simpl in H. lia.
  Qed.
  Lemma are_identical_ok : forall l, Forall (@NoDup string) l -> are_identical l = Ok true ->
    forall a b, In a l -> In b l -> forall x, In x a -> In x b.
  Proof.
    intros [|c m] Nd H; [discriminate|]. unfold are_identical in H. assert (K := f_equal (fun r => match r with Ok b => b | _ => false end) H). cbv beta iota zeta in K. clear H. rename K into H. rewrite forallb_forall in H.
    assert (Len : forall s, In s (c :: m) -> List.length s = List.length (filter (fun x => forallb (inb String.eqb x) m) c)) by (intros s Hs; apply Nat.eqb_eq; auto).
    assert (Sub : forall s, In s (c :: m) -> incl c s).
    { intros s [<-|Hs] x Hx; auto. pose proof (Len c (or_introl eq_refl)) as Lc. symmetry in Lc. apply (filter_full _ _ _ Lc) in Hx. rewrite forallb_forall in Hx.
      apply inb_string. auto. }
    rewrite Forall_forall in Nd.
    assert (Sup : forall s, In s (c :: m) -> incl s c).
    { intros s Hs. apply (NoDup_length_incl (l := c)); [apply Nd; now left| |auto]. rewrite (Len s Hs), (Len c (or_introl eq_refl)). auto. }
    intros a b Ha Hb x Hx. apply (Sub b Hb), (Sup a Ha), Hx.
  Qed.
  Lemma sum_nonempty : forall l, wf_spe (SumSPE l) -> l <> [].
  Proof. intros l (_ & T & _) ->. simpl in T. lra. Qed.
  Lemma sum_terms_den : forall c (w : lg S) f a, sumR (map (fun d => toP (snd d) * den (fst d) f a) (sum_terms c w)) = toP w * den c f a.
  Proof.
    intros c w f a. unfold sum_terms. destruct c; try (cbn [map fst snd sumR fold_right]; ring). cbn [SpeSpec.den]. rewrite map_map. cbn [fst snd].
    rewrite (sumR_ext _ _ (fun d => toP (snd d) * den (fst d) f a * toP w)) by (intros; rewrite ladd_ok; ring). rewrite sumR_scale. ring.
  Qed.
  Lemma sum_terms_weight : forall c (w : lg S), wf_spe c -> sumR (map (fun d => toP (snd d)) (sum_terms c w)) = toP w.
  Proof.
    intros c w W. unfold sum_terms. destruct c; try (cbn [map fst snd sumR fold_right]; ring). destruct W as (_ & T & _). rewrite map_map. cbn [fst snd].
    rewrite (sumR_ext _ _ (fun d => toP (snd d) * toP w)) by (intros; rewrite ladd_ok; ring). rewrite sumR_scale, T. ring.
  Qed.
  Lemma sum_terms_wf : forall c (w : lg S), wf_spe c -> sum_terms c w <> [] /\
    forall d, In d (sum_terms c w) -> wf_spe (fst d) /\ forall x, vars (fst d) x <-> vars c x.
  Proof.
    intros c w W. unfold sum_terms. destruct c as [| | |l|]; try (split; [discriminate|]; intros d0 [<-|[]]; cbn [fst]; split; [exact W|tauto]). split.
    - pose proof (sum_nonempty l W). destruct l; [tauto|discriminate].
    - intros d Hd. apply in_map_iff in Hd. destruct Hd as (e & <- & He). cbn [fst]. split; [apply (sum_wf dlaw l W e He)|]. intro x. symmetry. now apply (sum_vars dlaw).
  Qed.
  Theorem mk_Sum_ok : forall cs ws t, Forall wf_spe cs -> mk_Sum cs ws = Ok t -> sumR (map toP ws) = 1 ->
    List.length cs = List.length ws /\ wf_spe t /\ (exists l, t = SumSPE l) /\
    (forall c x, In c cs -> (vars t x <-> vars c x)) /\
    forall f a, den t f a = sumR (map (fun p => toP (snd p) * den (fst p) f a) (combine cs ws)).
  Proof.
    intros cs ws t Wc H T. unfold mk_Sum in H. inv_bind H. inv_bind H. inv_bind H. inv_bind H. destruct r2; [|discriminate]. injection H as <-.
    unfold passert in E. destruct (Nat.eqb_spec (List.length cs) (List.length ws)) as [Len|]; [|discriminate]. rewrite Forall_forall in Wc.
    set (l := List.concat (map (fun p => sum_terms (fst p) (snd p)) (combine cs ws))) in *.
    assert (Src : forall d, In d l -> exists p, In p (combine cs ws) /\ In d (sum_terms (fst p) (snd p))).
    { intros d Hd. apply in_concat in Hd. destruct Hd as (m & Hm & Hd). apply in_map_iff in Hm. destruct Hm as (p & <- & Hp). eauto. }
    assert (Dst : forall p d, In p (combine cs ws) -> In d (sum_terms (fst p) (snd p)) -> In d l).
    { intros p d Hp Hd. apply in_concat. exists (sum_terms (fst p) (snd p)). split; auto. apply in_map_iff. eauto. }
    assert (Wp : forall p, In p (combine cs ws) -> wf_spe (fst p)) by (intros [c w] Hp; apply Wc; now apply in_combine_l in Hp).
    assert (Wl : forall d, In d l -> wf_spe (fst d)).
    { intros d Hd. destruct (Src d Hd) as (p & Hp & Hd'). now apply (sum_terms_wf (fst p) (snd p) (Wp p Hp)). }
    assert (Sv : forall c d, In c l -> In d l -> forall x, vars (fst c) x -> vars (fst d) x).
    { intros c d Hc Hd x Hx. apply get_symbols_vars. apply get_symbols_vars in Hx.
      refine (are_identical_ok _ _ E2 (get_symbols (fst c)) (get_symbols (fst d)) _ _ x Hx).
      - apply Forall_forall. intros s Hs. apply in_map_iff in Hs. destruct Hs as (e & <- & He). apply get_symbols_nodup. auto.
      - apply in_map_iff. eauto.
      - apply in_map_iff. eauto. }
    assert (Tl : sumR (map (fun d => toP (snd d)) l) = 1).
    { unfold l. rewrite sumR_concat_map, map_map. rewrite (sumR_ext _ _ (fun p => toP (snd p))) by (intros p Hp; now apply sum_terms_weight, Wp).
      rewrite <- T. f_equal. clear -Len. revert ws Len. induction cs as [|c cs IH]; intros [|w ws] L; try discriminate; auto. simpl. f_equal. apply IH. simpl in L. lia. }
    assert (Wt : wf_spe (SumSPE l)). { cbn [SpeSpec.wf_spe]. split; [apply All_intro; auto|]. split; auto. }
    refine (conj Len (conj Wt (conj (ex_intro _ l eq_refl) (conj _ _)))).
    - intros c x Hc. assert (Hp : exists w, In (c, w) (combine cs ws)).
      { clear -Len Hc. revert ws Len. induction cs as [|b cs IH]; intros [|w ws] L; try discriminate; [destruct Hc|]. destruct Hc as [<-|Hc]; [exists w; now left|]. simpl in L. destruct (IH Hc ws) as (w' & Hw); [lia|]. exists w'. now right. }
      destruct Hp as (w & Hp). destruct (sum_terms_wf c w (Wp _ Hp)) as (Ne & St). destruct (sum_terms c w) as [|d m] eqn:Et; [tauto|].
      assert (Hd : In d l) by (apply (Dst (c, w)); auto; cbn [fst snd]; rewrite Et; now left). destruct (St d (or_introl eq_refl)) as (_ & Vd).
      rewrite (sum_vars dlaw l d Wt Hd x). apply Vd.
    - intros f a. cbn [SpeSpec.den]. unfold l. rewrite sumR_concat_map, map_map. apply sumR_ext. intros p _. apply sum_terms_den.
  Qed.

  (** ** Products *)
  Lemma nodup_concat : forall A (l : list (list A)), NoDup (List.concat l) -> ForallOrdPairs (fun a b => forall x, In x a -> In x b -> False) l.
  Proof.
    induction l as [|a l IH]; intros H; constructor.
    - apply Forall_forall. intros b Hb x Ha Hx. simpl in H. clear IH. induction a as [|y a IH]; [destruct Ha|]. simpl in H. inversion H; subst. destruct Ha as [->|Ha]; [|auto].
      apply H2. apply in_app_iff. right. apply in_concat. eauto.
    - apply IH. simpl in H. clear IH. induction a; auto. simpl in H. inversion H; auto.
  Qed.
  Lemma dedup_length : forall l, List.length (dedup String.eqb l) = List.length l -> NoDup l.
  Proof.
    intros l H. assert (Le : forall l, (List.length (dedup String.eqb l) <= List.length l)%nat).
    { induction l0 as [|a m IH]; simpl; auto. destruct (inb String.eqb a m); simpl; lia. }
    induction l as [|a l IH]; [constructor|]. simpl in H. destruct (inb String.eqb a l) eqn:E.
    - specialize (Le l). lia.
    - simpl in H. constructor; [|apply IH; lia]. intro K. apply inb_string in K. congruence.
  Qed.
  Lemma concat_length : forall A (l : list (list A)), List.length (List.concat l) = list_sum (map (@List.length A) l).
  Proof. induction l; simpl; auto. rewrite app_length. congruence. Qed.
  Lemma are_disjoint_ok : forall l, are_disjoint l = Ok true -> l <> [] /\ ForallOrdPairs (fun a b => forall x, In x a -> In x b -> False) l.
  Proof.
    intros l H. destruct l as [|a l]; [discriminate|]. split; [discriminate|]. unfold are_disjoint in H. injection H as H. apply Nat.eqb_eq in H.
    apply nodup_concat, dedup_length. unfold sunions in H. now rewrite concat_length.
  Qed.
  Lemma den_prod_app : forall l m f a, den_prod den (l ++ m) f a = den_prod den l (den_prod den m f) a.
  Proof. induction l as [|c l IH]; intros m f a; auto. cbn [app SpeSpec.den_prod]. f_equal. extensionality b. apply IH. Qed.
  Lemma prod_terms_den : forall c f a, den_prod den (prod_terms c) f a = den c f a.
  Proof. intros c f a. destruct c; reflexivity. Qed.
  Lemma prod_terms_wf : forall c, wf_spe c -> prod_terms c <> [] /\ All wf_spe (prod_terms c) /\ forall x, vars c x <-> exists d, In d (prod_terms c) /\ vars d x.
  Proof.
    intros c W. destruct c as [| | | |l]; cbn [prod_terms]; try (split; [discriminate|]; split; [split; [exact W|exact Logic.I]|];
      intro x0; split; [intros H; eexists; split; [now left|exact H]|intros (d0 & [<-|[]] & H); exact H]).
    destruct W as (Ne & A & _). split; auto. split; auto. intro x. cbn [vars]. apply any_in.
  Qed.
  Theorem mk_Product_ok : forall cs t, Forall wf_spe cs -> mk_Product cs = Ok t ->
    wf_spe t /\ (exists l, t = ProductSPE l) /\ (forall x, vars t x <-> exists c, In c cs /\ vars c x) /\ cs <> [] /\ ForallOrdPairs (apart (D:=D)) cs /\
    forall f a, den t f a = den_prod den cs f a.
  Proof.
    intros cs t Wc H. unfold mk_Product in H. inv_bind H. destruct r; [|discriminate]. injection H as <-. apply are_disjoint_ok in E. destruct E as (Ne & Dj). rewrite Forall_forall in Wc.
    set (l := List.concat (map prod_terms cs)) in *.
    assert (Wl : All wf_spe l).
    { apply All_intro. intros d Hd. apply in_concat in Hd. destruct Hd as (m & Hm & Hd). apply in_map_iff in Hm. destruct Hm as (c & <- & Hc). destruct (prod_terms_wf c (Wc c Hc)) as (_ & A & _). now apply (All_In _ _ _ d A). }
    apply FOP_map in Dj.
    assert (Ap : ForallOrdPairs (apart (D:=D)) l).
    { eapply FOP_weaken; [|exact Dj]. intros c d _ _ K x Hc Hd. apply (K x); now apply get_symbols_vars. }
    assert (Vl : forall x, vars (ProductSPE l) x <-> exists c, In c cs /\ vars c x).
    { intro x. cbn [vars]. rewrite any_in. split.
      - intros (d & Hd & Hx). apply in_concat in Hd. destruct Hd as (m & Hm & Hd). apply in_map_iff in Hm. destruct Hm as (c & <- & Hc). exists c. split; auto. apply (prod_terms_wf c (Wc c Hc)). eauto.
      - intros (c & Hc & Hx). apply (prod_terms_wf c (Wc c Hc)) in Hx. destruct Hx as (d & Hd & Hx). exists d. split; auto. apply in_concat. exists (prod_terms c). split; auto. now apply in_map. }
    refine (conj _ (conj (ex_intro _ l eq_refl) (conj Vl (conj _ (conj _ _))))).
    - cbn [SpeSpec.wf_spe]. split; [|split; auto]. intros ->. now apply Ne.
    - intros ->. now apply Ne.
    - clear -Ap Wc. unfold l in Ap. clear l. induction cs as [|c cs IH]; constructor.
      + apply Forall_forall. intros d Hd x Hx Hy. assert (Wc' := Wc c (or_introl eq_refl)). assert (Wd := Wc d (or_intror Hd)).
        apply (prod_terms_wf c Wc') in Hx. apply (prod_terms_wf d Wd) in Hy. destruct Hx as (c' & Hc' & Hx). destruct Hy as (d' & Hd' & Hy).
        simpl in Ap. assert (Hd2 : In d' (List.concat (map prod_terms cs))) by (apply in_concat; exists (prod_terms d); split; auto; now apply in_map).
        clear -Ap Hc' Hd2 Hx Hy. induction (prod_terms c) as [|e m IH]; [destruct Hc'|]. simpl in Ap. inversion Ap as [|? ? A1 A2]; subst. destruct Hc' as [->|Hc']; [|auto].
        rewrite Forall_forall in A1. apply (A1 d') with (x := x); auto. apply in_app_iff. auto.
      + apply IH; [intros; apply Wc; now right|]. simpl in Ap. clear -Ap. induction (prod_terms c) as [|e m IH]; auto. simpl in Ap. inversion Ap; auto.
    - intros f a. cbn [SpeSpec.den]. unfold l. clear. revert f a. induction cs as [|c cs IH]; intros f a; auto. cbn [map List.concat SpeSpec.den_prod]. rewrite den_prod_app, prod_terms_den.
      f_equal. extensionality b. apply IH.
  Qed.
End Cons.
