(** Proofs about the possible results of sampling: the samples lie in the support. *)
From Coq Require Import List Bool String Reals Lra Lia ZArith QArith Qreals Permutation FunctionalExtensionality.
From Verif Require Import Base Num Sets SetSpec SetProofs Poly Trans TransSpec TransFacts PolyProofs EvProofs ArithProofs Logs Spe SpeSpec SpeFacts SpeRect LeafProofs LeafEvents SpeCons Sample SampleSpec SampleFacts.
Import ListNotations.
Local Open Scope list_scope.
Local Open Scope R_scope.

(** [m] has exactly the variables V, with the values of w *)
Definition tells (m : sdict) (V : string -> Prop) (w : asg) : Prop :=
  (forall x, V x -> exists v, sget m x = Some v /\ fval_of v = Some (w x)) /\ only_keys m V.
Lemma tells_agree : forall m (V : string -> Prop) (w w' : asg), (forall x, V x -> w x = w' x) -> tells m V w -> tells m V w'.
Proof. intros m V w w' E (H & K). split; auto. intros x Hx. rewrite <- E by auto. auto. Qed.
Lemma tells_iff : forall m (V V' : string -> Prop) w, (forall x, V x <-> V' x) -> tells m V w -> tells m V' w.
Proof. intros m V V' w E (H & K). split; [intros x Hx; apply H; now apply E|]. intros x Hx. apply E. auto. Qed.
Lemma tells_onto : forall m (V : string -> Prop) w a x, tells m V w -> V x -> onto m a x = w x.
Proof. intros m V w a x (H & _) Hx. destruct (H x Hx) as (v & E & F). unfold onto. now rewrite E, F. Qed.
Lemma tells_complete : forall m V w, tells m V w -> complete m V /\ only_keys m V.
Proof.
  intros m V w (H & K). split; auto. intros x. split.
  - intros Hx. destruct (H x Hx) as (v & E & F). eauto.
  - intros (v & u & E & _). apply K. congruence.
Qed.

(** samples for separate variables, put together *)
Definition separate (V V' : string -> Prop) : Prop := forall x, V x -> V' x -> False.
Lemma Forall2_in : forall A B (P Q : A -> B -> Prop) l m, (forall a b, In a l -> P a b -> Q a b) -> Forall2 P l m -> Forall2 Q l m.
Proof. intros A B P Q l m H F. induction F; constructor; [apply H; auto; now left|]. apply IHF. intros; apply H; auto. now right. Qed.
Lemma concat_get : forall Vs ms, ForallOrdPairs separate Vs -> Forall2 (fun (V : string -> Prop) m => only_keys m V) Vs ms ->
  Forall2 (fun (V : string -> Prop) m => forall x, V x -> sget (List.concat ms) x = sget m x) Vs ms /\ only_keys (List.concat ms) (fun x => Exists (fun V : string -> Prop => V x) Vs).
Proof.
  intros Vs ms F H. induction H as [|V m Vs ms Hm H IH].
  - split; [constructor|]. intros x Hx. now contradiction Hx.
  - inversion F as [|? ? F1 F2]; subst. destruct (IH F2) as (IH1 & IH2). rewrite Forall_forall in F1. split.
    + constructor.
      * intros x Hx. cbn. rewrite sget_app. destruct (sget m x) eqn:E; auto. destruct (sget (List.concat ms) x) eqn:E2; auto. exfalso.
        assert (K : sget (List.concat ms) x <> None) by congruence. apply IH2 in K. apply Exists_exists in K. destruct K as (V' & HV & Hx'). exact (F1 V' HV x Hx Hx').
      * eapply Forall2_in; [|exact IH1]. cbn. intros V' m' HV Hc x Hx. rewrite sget_app. destruct (sget m x) eqn:E; [|auto]. exfalso. apply (F1 V' HV x); auto. apply Hm. congruence.
    + intros x Hx. cbn in Hx. rewrite sget_app in Hx. destruct (sget m x) eqn:E.
      * left. apply Hm. congruence.
      * right. apply IH2. exact Hx.
Qed.
(** the combined sample, given one assignment that all parts agree with *)
Lemma Forall2_ex : forall A B (P : A -> B -> Prop) (Q : A -> Prop) l m, Forall2 P l m -> Exists Q l -> exists a b, In a l /\ Q a /\ P a b.
Proof.
  intros A B P Q l m F E. induction F; inversion E; subst.
  - exists x, y. split; auto. now left.
  - destruct (IHF H1) as (a & b & Ha & Hq & Hp). exists a, b. split; auto. now right.
Qed.
Lemma Forall2_both : forall A B (P Q : A -> B -> Prop) l m, Forall2 P l m -> Forall2 Q l m -> Forall2 (fun a b => P a b /\ Q a b) l m.
Proof. intros A B P Q l m F. induction F; intros G; inversion G; subst; constructor; auto. Qed.
Lemma concat_tells : forall Vs ms w, ForallOrdPairs separate Vs -> Forall2 (fun (V : string -> Prop) m => tells m V w) Vs ms -> tells (List.concat ms) (fun x => Exists (fun V : string -> Prop => V x) Vs) w.
Proof.
  intros Vs ms w F H. destruct (concat_get Vs ms F) as (G1 & G2).
  { eapply Forall2_in; [|exact H]. now intros V m _ (_ & K). }
  split; auto. intros x Hx. destruct (Forall2_ex _ _ _ _ _ _ (Forall2_both _ _ _ _ _ _ G1 H) Hx) as (V & m & HV & Hq & E & T). rewrite (E x Hq). now apply T.
Qed.

Lemma zip2_in : forall a b m, In m (zip2 a b) -> exists x y, In x a /\ In y b /\ m = x ++ y.
Proof.
  induction a as [|x a IH]; intros [|y b] m H; cbn in H; try contradiction. destruct H as [<-|H].
  - exists x, y. repeat split; auto; now left.
  - destruct (IH b m H) as (u & v & Hu & Hv & E). exists u, v. repeat split; auto; now right.
Qed.
Lemma merge_in : forall ls m, In m (merge_samples ls) -> exists ms, Forall2 (fun a m => In m a) ls ms /\ m = List.concat ms.
Proof.
  induction ls as [|a ls IH]; intros m H; [contradiction|]. destruct ls as [|b ls].
  - exists [m]. split; [repeat constructor; exact H|]. cbn. now rewrite app_nil_r.
  - change (merge_samples (a :: b :: ls)) with (zip2 a (merge_samples (b :: ls))) in H. apply zip2_in in H. destruct H as (x & y & Hx & Hy & ->). destruct (IH y Hy) as (ms & F & ->). exists (x :: ms). split; auto.
Qed.

Section Sim.
  Context {N : numsys} {S : logsys} {D : distsys N S}.
  Notation spe := (spe D).
  Notation gen := (gen (D:=D)).

  (** ** Evaluation *)
  Lemma evaluate_ok : forall (t : tr N) m w u, good t -> realv t -> smooth t ->
    (forall x, In x (symbols t) -> exists v, sget m x = Some v /\ fval_of v = Some (w x)) ->
    teval t w = Some u -> exists v, evaluate t m = Ok v /\ fval_of v = Some u.
  Proof.
    assert (NumOp : forall f o u, num_op f o = Some u -> exists x y, o = Some (FNum x) /\ f x = Some y /\ u = FNum y).
    { intros f [[x|s]|] u H; try discriminate. cbn in H. destruct (f x) eqn:E; [|discriminate]. injection H as <-. eauto. }
    assert (Num : forall v x, fval_of v = Some (FNum x) -> v = SNum x) by (intros [y|s|o] x H; cbn in H; congruence).
    induction t using tr_ind'; intros m w u0 G Rv Sm Hm Ht; cbn [evaluate teval good smooth symbols] in *; try contradiction.
    - destruct (Hm x) as (v' & E & F); [now left|]. rewrite E. exists v'. split; auto. congruence.
    - destruct G as (G & G'). apply NumOp in Ht. destruct Ht as (x & y & E & F & ->). destruct (IHt m w _ G G' Sm Hm E) as (v' & Ev & Fv). apply Num in Fv. subst v'. rewrite Ev. cbn.
      unfold nonnegative, f_root in *. destruct (Rlt_dec x 0); [discriminate|]. cbn. eexists. split; [reflexivity|]. cbn. destruct (Req_EM_T x 0); congruence.
    - destruct G as (G & G' & _). apply NumOp in Ht. destruct Ht as (x & y & E & F & ->). destruct (IHt m w _ G G' Sm Hm E) as (v' & Ev & Fv). apply Num in Fv. subst v'. rewrite Ev. cbn.
      eexists. split; [reflexivity|]. unfold f_exp in F. cbn. congruence.
    - destruct G as (G & G'). apply NumOp in Ht. destruct Ht as (x & y & E & F & ->). destruct (IHt m w _ G G' Sm Hm E) as (v' & Ev & Fv). apply Num in Fv. subst v'. rewrite Ev. cbn.
      eexists. split; [reflexivity|]. cbn. f_equal. f_equal. injection F as <-. unfold Rabs. destruct (Rlt_dec 0 x), (Rcase_abs x); lra.
    - destruct G as (G & G'). apply NumOp in Ht. destruct Ht as (x & y & E & F & ->). destruct (IHt m w _ G G' Sm Hm E) as (v' & Ev & Fv). apply Num in Fv. subst v'. rewrite Ev. cbn.
      unfold nonzero, f_recip in *. destruct (Req_EM_T x 0); [discriminate|]. cbn. eexists. split; [reflexivity|]. cbn. congruence.
    - destruct G as (G & G'). apply NumOp in Ht. destruct Ht as (x & y & E & F & ->). destruct (IHt m w _ G G' Sm Hm E) as (v' & Ev & Fv). apply Num in Fv. subst v'. rewrite Ev. cbn.
      eexists. split; [reflexivity|]. cbn. congruence.
    - destruct k; try (cbn in Rv; contradiction).
      + destruct G as (G & G' & _ & i & ->). destruct (teval t w) as [[x|]|] eqn:E; try discriminate. destruct (IHt m w _ G G' Sm Hm E) as (v' & Ev & Fv). apply Num in Fv. subst v'. rewrite Ev. cbn.
        eexists. split; [reflexivity|]. cbn. rewrite <- Ht. unfold truth, fm, mem, inj, bmem. now destruct (dec (iv_mem (Fin x) i)).
      + destruct G as (G & G' & _ & Gs). destruct (teval t w) as [[x|]|] eqn:E; try discriminate. destruct (IHt m w _ G G' Sm Hm E) as (v' & Ev & Fv). apply Num in Fv. subst v'. rewrite Ev. cbn.
        destruct Gs as [->|(vs & ->)]; cbn.
        * eexists. split; [reflexivity|]. cbn. rewrite <- Ht. unfold truth. destruct (dec (fm (FNum x) PEmpty)) as [K|]; [destruct K|reflexivity].
        * eexists. split; [reflexivity|]. cbn. rewrite <- Ht. unfold truth, fm, mem, inj, bmem. now destruct (dec (exists y, In y vs /\ eR y = Fin x)).
  Qed.

  (** ** The loop over the environment *)
  Lemma built_split : forall X (env : tenv (N:=N)), env_built X env -> forall e1 y t e2, env = e1 ++ (y, t) :: e2 ->
    lookup y env = Some t /\ forall s, In s (symbols t) -> s = X \/ In s (map fst e1).
  Proof.
    induction 1 as [|env y t B IH Fr Sy]; intros e1 z u e2 E.
    - destruct e1 as [|p e1]; cbn in E.
      + injection E as <- <- <-. split; [cbn; now rewrite String.eqb_refl|]. intros s [<-|[]]. now left.
      + injection E as _ E. destruct e1; discriminate.
    - destruct (exists_last (l := (z, u) :: e2)) as (l & p & El); [discriminate|]. rewrite El in E. rewrite app_assoc in E. apply app_inj_tail in E. destruct E as (E & <-).
      destruct l as [|q l].
      + cbn in El. injection El as -> -> ->. rewrite app_nil_r in E. subst e1. split; [|intros s Hs; right; auto].
        rewrite lookup_app. destruct (lookup y env) eqn:L; [exfalso; apply Fr, lookup_in; eauto|]. cbn. now rewrite String.eqb_refl.
      + cbn in El. injection El as <- El. destruct (IH e1 z u l E) as (L & K). split; auto. rewrite lookup_app, L. reflexivity.
  Qed.
  Lemma simulate_ok : forall X (env : tenv (N:=N)) xs w, env_built X env -> env_good env -> (forall p, In p env -> smooth (snd p)) -> consistent env w ->
    forall e2 e1 m, env = e1 ++ e2 -> (forall s, s = X \/ In s (map fst e1) -> exists v, sget m s = Some v /\ fval_of v = Some (w s)) ->
    exists r, simulate e2 xs m = Ok r /\ tells r (fun x => In x xs /\ In x (map fst e2)) w.
  Proof.
    intros X env xs w B G Sm C. induction e2 as [|(y, t) e2 IH]; intros e1 m E Hm; cbn.
    - exists []. split; auto. split; [intros x (_ & [])|]. intros x H. now contradiction H.
    - destruct (built_split X env B e1 y t e2 E) as (L & Sy). destruct (G y t L) as (Gt & Rt).
      destruct (evaluate_ok t m w (w y) Gt Rt) as (v & Ev & Fv); auto. { apply (Sm (y, t)). rewrite E. apply in_or_app. right. now left. }
      rewrite Ev. cbn. destruct (IH (e1 ++ [(y, t)]) ((y, v) :: m)) as (r & Er & Tr).
      { rewrite <- app_assoc. exact E. }
      { intros s Hs. cbn. destruct (String.eqb_spec s y) as [->|Ne]; [eauto|]. apply Hm. destruct Hs as [Hs|Hs]; auto. rewrite map_app in Hs. apply in_app_iff in Hs. destruct Hs as [Hs|[Hs|[]]]; auto. now contradiction Ne. }
      rewrite Er. cbn. eexists. split; [reflexivity|]. destruct Tr as (T1 & T2). destruct (existsb (String.eqb y) xs) eqn:Ex.
      + apply existsb_exists in Ex. destruct Ex as (y' & Hy & Ey). apply String.eqb_eq in Ey. subst y'. split.
        * intros x (Hx & [->|Hx2]); cbn; [rewrite String.eqb_refl; eauto|]. destruct (String.eqb_spec x y) as [->|]; [eauto|auto].
        * intros x Hx. cbn in Hx. destruct (String.eqb_spec x y) as [E0|]; [split; [now rewrite E0|now left]|]. apply T2 in Hx. destruct Hx. split; [auto|now right].
      + split.
        * intros x (Hx & [->|Hx2]); [|auto]. exfalso. assert (K : existsb (String.eqb x) xs = true) by (apply existsb_exists; exists x; split; auto; apply String.eqb_refl). congruence.
        * intros x Hx. apply T2 in Hx. destruct Hx. split; [auto|now right].
  Qed.

  Context (drawn : dist D -> R -> Prop) (uniform : R -> Prop).
  Notation outcome := (outcome drawn uniform).
  Context (ppf : dist D -> R -> R) (dlaw : dist D -> (fval -> R) -> R).
  Notation wf_leaf := (wf_leaf dlaw).
  Notation wf_spe := (wf_spe dlaw).
  Notation sourced := (sourced drawn dlaw ppf).
  Context (Hu : forall u, uniform u -> 0 < u < 1).

  (** ** Draws *)
  Lemma invert_ok : forall disc d (supp : interval N), wf_iv supp -> (disc = true -> disc_supp dlaw d supp) -> dist_ok dlaw disc d ->
    0 < dlaw d (ind (in_iv supp)) -> quantile dlaw disc d (ppf d) -> forall u, 0 < u < 1 ->
    in_iv supp (FNum (ppf d (u * leaf_Fl disc d supp + (1 - u) * leaf_Fu disc d supp))).
  Proof.
    intros disc d supp Wi Wd Wo P Q u U. pose proof (d_law _ _ _ Wo) as LB.
    assert (EFl : leaf_Fl disc d supp = dlaw d (ind (at_most (low disc supp)))) by exact (logFl_B dlaw disc d supp Wi (disc_int _ _ _ _ _ _ _ Wd) Wo).
    assert (EFu : leaf_Fu disc d supp = dlaw d (ind (at_most (high disc supp)))).
    { unfold leaf_Fu. rewrite (d_cdf _ _ _ Wo). now rewrite (proj2 (supp_ends disc supp Wi (disc_int _ _ _ _ _ _ _ Wd))). }
    assert (Z : dlaw d (ind (in_iv supp)) = dlaw d (ind (at_most (high disc supp))) - dlaw d (ind (at_most (low disc supp)))).
    { apply (cut_prob _ _ _ _ LB); [apply null_cut; auto|now apply low_high]. }
    rewrite EFl, EFu. pose proof (law_01 LB (at_most (low disc supp))) as L01. pose proof (law_01 LB (at_most (high disc supp))) as H01.
    set (Fl := dlaw d (ind (at_most (low disc supp)))) in *. set (Fu := dlaw d (ind (at_most (high disc supp)))) in *.
    set (q := u * Fl + (1 - u) * Fu). assert (Hq : Fl < q < Fu) by (unfold q; split; nra). assert (Q01 : 0 < q < 1) by lra.
    assert (A : at_most (high disc supp) (FNum (ppf d q))).
    { apply at_most_num. destruct (high disc supp) as [|h|] eqn:Eh; auto.
      - unfold high in Eh. destruct (wf_iv_ends supp Wi) as (_ & Nb). destruct (iv_b supp); congruence.
      - apply (q_least _ _ _ _ Q q h Q01). unfold cdf. unfold Fu in Hq. lra. }
    assert (B : ~ at_most (low disc supp) (FNum (ppf d q))).
    { intros K. apply at_most_num in K. destruct (low disc supp) as [|h|] eqn:Eh; auto.
      - apply (q_least _ _ _ _ Q q h Q01) in K. unfold cdf in K. unfold Fl in Hq. lra.
      - unfold low in Eh. destruct (wf_iv_ends supp Wi) as (Na & _). destruct (iv_a supp); congruence. }
    assert (C : cuts supp (low disc supp) (high disc supp) (FNum (ppf d q))).
    { destruct disc.
      - apply cuts_disc; auto. destruct (q_int _ _ _ _ Q eq_refl q Q01) as (z & Ez). exists z. now rewrite Ez.
      - apply cuts_cont; auto. intros c [Ec|Ec] K; injection K as K.
        + apply B. apply at_most_num. unfold low. rewrite Ec. lra.
        + destruct (q_cont _ _ _ _ Q eq_refl (toR c) (Fu - q)) as (y & Hy & Hc); [lra|].
          assert (E : cdf dlaw d (toR c) = Fu) by (unfold Fu, cdf, high; now rewrite Ec). rewrite E in Hc.
          assert (K2 : ppf d q <= y) by (apply (q_least _ _ _ _ Q q y Q01); lra). lra. }
    apply C. now split.
  Qed.
  Lemma draws_ok : forall s n vs, wf_leaf s -> sourced s -> outcome (draws ppf s n) (Ok vs) ->
    Forall (fun v => exists u, fval_of v = Some u /\ leaf_point s u) vs.
  Proof.
    intros s n vs W Hs H. destruct s as [disc x d supp cond env|x v env|x ws|l0|l0]; try contradiction.
    - destruct W as (Wi & Wd & Wo & Wp & _). destruct cond; cbn [draws] in H; inversion H as [| | | |? ? ? l r Hl Hf Ho|? ? l r Hl Hf Ho]; subst; apply out_ret_inv in Ho; injection Ho as ->; apply Forall_map.
      + eapply Forall_impl; [|exact Hf]. intros u U. eexists. split; [reflexivity|]. apply invert_ok; auto.
      + eapply Forall_impl; [|exact Hf]. intros r R. eexists. split; [reflexivity|]. now apply Hs.
    - cbn [draws] in H. apply out_ret_inv in H. injection H as ->. apply Forall_forall. intros u U. apply repeat_spec in U. subst u. eexists. split; reflexivity.
    - cbn [draws] in H. inversion H as [| |? ? ? l r Hl Hf Ho| | |]; subst. apply out_ret_inv in Ho. injection Ho as ->. apply Forall_map. eapply Forall_impl; [|exact Hf].
      intros i (Hi & Hp). eexists. split; [reflexivity|]. exists (nth i ws (EmptyString, 0%Q)). rewrite normalize_length, map_length in Hi. split; [now apply nth_In|]. split; auto.
      apply normalize_pos in Hp.
      + apply Rlt_Qlt. rewrite (nth_indep _ 0 (Q2R (snd (EmptyString, 0%Q)))) in Hp by now rewrite map_length. rewrite (map_nth (fun p : string * Q => Q2R (snd p))) in Hp. now rewrite RMicromega.Q2R_0.
      + intros y Hy. apply in_map_iff in Hy. destruct Hy as (p & <- & Hy). destruct W as (_ & W & _). rewrite Forall_forall in W. rewrite <- RMicromega.Q2R_0. apply Qle_Rle. auto.
  Qed.

  (** ** Leaves *)
  Lemma leaf_place_sym : forall s w v, wf_leaf s -> leaf_place s w v (leaf_sym s) = v.
  Proof. intros s w v W. rewrite <- (leaf_place_base dlaw s w v W) at 2. now destruct s. Qed.
  Lemma leaf_vars : forall s x, wf_leaf s -> vars s x <-> In x (map fst (leaf_tenv s)).
  Proof. intros [disc y d supp cond env|y a env|y ws|l|l] x W; try contradiction; cbn; [tauto|tauto|]. tauto. Qed.
  Lemma leaf_simulate : forall s xs v u w, wf_leaf s -> settled s -> fval_of v = Some u -> leaf_point s u -> 
    exists r, simulate (leaf_tenv s) xs [(leaf_sym s, v)] = Ok r /\ tells r (fun x => In x xs /\ vars s x) (leaf_place s w u).
  Proof.
    intros s xs v u w W St Hv Hu'.
    assert (B : env_built (leaf_sym s) (leaf_tenv s) /\ env_good (leaf_tenv s) /\ (forall p, In p (leaf_tenv s) -> smooth (snd p)) /\ consistent (leaf_tenv s) (leaf_place s w u)).
    { destruct s as [disc y d supp cond env|y a env|y ws|l|l]; try contradiction; cbn [leaf_sym leaf_tenv].
      - destruct W as (_ & _ & _ & _ & (B1 & B2) & _). destruct St as (S1 & S2). split; [exact B1|]. split; [exact B2|]. split; [exact S1|]. exact (S2 w u Hu').
      - destruct W as ((B1 & B2) & _). destruct St as (S1 & S2). split; [exact B1|]. split; [exact B2|]. split; [exact S1|]. exact (S2 w u Hu').
      - split; [constructor|]. split; [|split].
        + intros x t L. cbn in L. destruct (String.eqb x y); [|discriminate]. injection L as <-. now split.
        + intros p [<-|[]]. exact I.
        + intros x t L. cbn in L. destruct (String.eqb_spec x y) as [->|]; [|discriminate]. injection L as <-. reflexivity. }
    destruct B as (B1 & B2 & B3 & B4). destruct (simulate_ok _ _ xs _ B1 B2 B3 B4 (leaf_tenv s) [] [(leaf_sym s, v)] eq_refl) as (r & Er & Tr).
    { intros z [->|[]]. exists v. cbn. rewrite String.eqb_refl. split; auto. now rewrite leaf_place_sym. }
    exists r. split; auto. eapply tells_iff; [|exact Tr]. intros x. cbn. now rewrite leaf_vars.
  Qed.
  Lemma leaf_possible : forall s w u, wf_leaf s -> leaf_point s u -> possible s (leaf_place s w u).
  Proof.
    intros s w u W H. assert (K : exists v, leaf_point s v /\ forall x, vars s x -> leaf_place s w u x = leaf_place s (leaf_place s w u) v x).
    { exists u. split; auto. intros x Hx. apply (leaf_place_agree dlaw); auto. }
    destruct s; try contradiction; exact K.
  Qed.
  Notation fits s V m := (exists w, possible s w /\ tells m V w).
  Lemma just_spec : forall b xs x, just b xs x = true -> forall y, In y xs <-> y = x.
  Proof.
    intros b xs x H. unfold just in H. apply andb_true_iff in H. destruct H as (H & Hf). apply andb_true_iff in H. destruct H as (_ & Hn). rewrite forallb_forall in Hf. intros y. split.
    - intros Hy. apply Hf in Hy. now apply String.eqb_eq in Hy.
    - intros ->. destruct xs as [|z xs]; [discriminate|]. assert (x = z) by (apply String.eqb_eq, Hf; now left). subst. now left.
  Qed.
  Lemma leaf_subset_fits : forall s b xs n l, wf_leaf s -> settled s -> sourced s -> outcome (leaf_subset ppf s b xs n) (Ok l) ->
    Forall (fun m => fits s (fun x => In x xs) m) l.
  Proof.
    intros s b xs n l W St So H. unfold leaf_subset in H. destruct (forallb _ xs) eqn:Ef; [|inversion H]. rewrite forallb_forall in Ef.
    assert (Hxs : forall x, In x xs -> vars s x).
    { intros x Hx. apply Ef in Hx. apply existsb_exists in Hx. destruct Hx as (y & Hy & E). apply String.eqb_eq in E. subst. now apply leaf_vars. }
    apply out_bind_ok in H. destruct H as (vs & Hv & H). apply (draws_ok s n vs W So) in Hv. destruct (just b xs (leaf_sym s)) eqn:Ej.
    - apply out_ret_inv in H. injection H as ->. apply Forall_map. eapply Forall_impl; [|exact Hv]. intros v (u & E & P). exists (leaf_place s w0 u). split; [now apply leaf_possible|].
      pose proof (just_spec _ _ _ Ej) as J. split.
      + intros x Hx. apply J in Hx. subst x. exists v. cbn. rewrite String.eqb_refl. split; auto. now rewrite leaf_place_sym.
      + intros x Hx. apply J. cbn in Hx. destruct (String.eqb_spec x (leaf_sym s)); auto. now contradiction Hx.
    - apply out_lift in H. symmetry in H. apply mapM_Forall2 in H. eapply Forall2_right; [exact H|]. intros v m Hin E. rewrite Forall_forall in Hv. destruct (Hv v Hin) as (u & Eu & P).
      exists (leaf_place s w0 u). split; [now apply leaf_possible|]. destruct (leaf_simulate s xs v u w0 W St Eu P) as (r & Er & Tr). cbn in E. assert (r = m) by congruence. subst r.
      eapply tells_iff; [|exact Tr]. intros x. cbn. split; [tauto|]. intros Hx. auto.
  Qed.
  Lemma mapM_total : forall A B (f : A -> res B) l, (forall a, In a l -> exists b, f a = Ok b) -> exists bs, mapM f l = Ok bs.
  Proof.
    intros A B f. induction l as [|a l IH]; intros H; cbn; [eauto|]. destruct (H a) as (b & E); [now left|]. rewrite E. cbn. destruct IH as (bs & E2); [intros; apply H; now right|]. rewrite E2. cbn. eauto.
  Qed.
  Lemma draws_total : forall s n r, wf_leaf s -> outcome (draws ppf s n) r -> exists l, r = Ok l.
  Proof.
    intros s n r W H. destruct s as [disc x d supp [|] env|x v env|x ws|l0|l0]; try contradiction; cbn [draws] in H; inversion H; subst; repeat match goal with K : outcome (Ret _) _ |- _ => apply out_ret_inv in K end; eauto.
  Qed.
  Lemma leaf_subset_total : forall s b xs n r, wf_leaf s -> settled s -> sourced s -> (forall x, In x xs -> vars s x) -> outcome (leaf_subset ppf s b xs n) r -> exists l, r = Ok l.
  Proof.
    intros s b xs n r W St So Hxs H. unfold leaf_subset in H.
    assert (Ef : forallb (fun x => existsb (String.eqb x) (map fst (leaf_tenv s))) xs = true).
    { apply forallb_forall. intros x Hx. apply existsb_exists. exists x. split; [|apply String.eqb_refl]. apply leaf_vars; auto. }
    rewrite Ef in H. apply out_bind in H. destruct H as [(vs & Hv & H)|(e & He & ->)].
    - apply (draws_ok s n vs W So) in Hv. destruct (just b xs (leaf_sym s)); [apply out_ret_inv in H; eauto|]. apply out_lift in H. subst r. apply mapM_total. intros v Hin.
      rewrite Forall_forall in Hv. destruct (Hv v Hin) as (u & Eu & P). destruct (leaf_simulate s xs v u w0 W St Eu P) as (r & Er & _). eauto.
    - apply draws_total in He; auto. destruct He; discriminate.
  Qed.

  (** ** Assignments that are possible *)
  Lemma possible_agree : forall s w w', wf_spe s -> (forall x, vars s x -> w x = w' x) -> possible s w -> possible s w'.
  Proof.
    assert (Lf : forall s w w', wf_leaf s -> (forall x, vars s x -> w x = w' x) -> possible s w -> possible s w').
    { intros s w w' W E H. assert (K : (exists v, leaf_point s v /\ forall x, vars s x -> w x = leaf_place s w v x) -> exists v, leaf_point s v /\ forall x, vars s x -> w' x = leaf_place s w' v x).
      { intros (v & Hv & Hx). exists v. split; auto. intros x Vx. rewrite <- E, Hx by auto. apply (leaf_place_agree dlaw); auto. }
      destruct s; try contradiction; exact (K H). }
    induction s using spe_ind'; intros w w' W E Hp; try (now apply (Lf _ w w')).
    - assert (K : forall c, In c l -> forall x, vars (SumSPE l) x <-> vars (fst c) x) by (intros c Hc; now apply (sum_vars dlaw l c W)).
      pose proof (sum_wf dlaw l W) as Wc. cbn [possible] in *. clear W.
      assert (G : forall l', (forall c, In c l' -> In c l) -> Any (fun c => 0 < toP (snd c) /\ possible (fst c) w) l' -> Any (fun c => 0 < toP (snd c) /\ possible (fst c) w') l').
      { induction l' as [|c l' IH]; intros Hl; [intros []|]. intros [(P1 & P2)|P]; [left|right].
        - split; auto. assert (Hc : In c l) by (apply Hl; now left). apply (H c Hc w); auto. intros x Hx. apply E. now apply (K c Hc).
        - apply IH; auto. intros; apply Hl; now right. }
      apply G; auto.
    - pose proof (prod_wf dlaw l W) as Wc. cbn [possible] in *. apply All_intro. intros c Hc. apply (H c Hc w); auto.
      + intros x Hx. apply E. change (pvars l x). apply pvars_in. eauto.
      + exact (All_In _ _ _ c Hp Hc).
  Qed.
  Lemma Any_intro : forall A (P : A -> Prop) l a, In a l -> P a -> Any P l.
  Proof. intros A P. induction l as [|b l IH]; intros a H Pa; [contradiction|]. destruct H as [->|H]; [now left|right; eauto]. Qed.
  (** assignments for the children of a product, put together *)
  Lemma glue : forall l, All wf_spe l -> ForallOrdPairs apart l -> forall ws, Forall2 possible l ws ->
    exists w, All (fun c => possible c w) l /\ Forall2 (fun c wc => forall x, vars c x -> w x = wc x) l ws.
  Proof.
    induction l as [|c l IH]; intros W F ws H; inversion H as [|? wc ? ws' Hc H']; subst.
    - exists w0. split; [exact I|constructor].
    - destruct W as (Wc & W). inversion F as [|? ? F1 F2]; subst. destruct (IH W F2 ws' H') as (w & P & A). exists (fun x => if dec (vars c x) then wc x else w x). rewrite Forall_forall in F1.
      assert (Out : forall d, In d l -> forall x, vars d x -> w x = (if dec (vars c x) then wc x else w x)).
      { intros d Hd x Hx. destruct (dec (vars c x)) as [K|]; auto. exfalso. exact (F1 d Hd x K Hx). }
      split; [split|constructor].
      + apply (possible_agree c wc); auto. intros x Hx. destruct (dec (vars c x)); tauto.
      + apply All_intro. intros d Hd. apply (possible_agree d w); [exact (All_In _ _ _ d W Hd)|exact (Out d Hd)|exact (All_In _ _ _ d P Hd)].
      + intros x Hx. destruct (dec (vars c x)); tauto.
      + eapply Forall2_in; [|exact A]. cbn. intros d wd Hd E x Hx. rewrite <- (E x Hx). symmetry. now apply (Out d Hd).
  Qed.
  Lemma Forall2_map_l : forall A B C (f : A -> B) (P : B -> C -> Prop) l m, Forall2 (fun a c => P (f a) c) l m -> Forall2 P (map f l) m.
  Proof. intros A B C f P l m H. induction H; cbn; constructor; auto. Qed.
  Lemma Forall2_map_inv : forall A B C (f : A -> B) (P : B -> C -> Prop) l m, Forall2 P (map f l) m -> Forall2 (fun a c => P (f a) c) l m.
  Proof. intros A B C f P. induction l as [|a l IH]; intros m H; inversion H; subst; constructor; auto. Qed.
  (** one of the samples of each list *)
  Lemma pick_each : forall A (P : A -> list sdict -> Prop) (Q : A -> sdict -> Prop) l ls ms, Forall2 P l ls -> Forall2 (fun a m => In m a) ls ms ->
    (forall a ls m, In a l -> P a ls -> In m ls -> Q a m) -> Forall2 Q l ms.
  Proof.
    intros A P Q l ls ms H. revert ms. induction H as [|a b l ls Ha H IH]; intros ms G K; inversion G; subst; constructor.
    - apply (K a b); auto. now left.
    - apply IH; auto. intros. eapply K; eauto. now right.
  Qed.
  (** ** sample *)
  Theorem sample_fits : forall s, wf_spe s -> settled s -> sourced s -> forall n l, outcome (sample ppf s n) (Ok l) -> Forall (fun m => fits s (vars s) m) l.
  Proof.
    assert (Lf : forall s, wf_leaf s -> settled s -> sourced s -> forall n l, outcome (leaf_sample ppf s n) (Ok l) -> Forall (fun m => fits s (vars s) m) l).
    { intros s W St So n l H. apply (leaf_subset_fits s _ _ _ _ W St So) in H. eapply Forall_impl; [|exact H]. intros m (w & P & T). exists w. split; auto. eapply tells_iff; [|exact T]. intros x. cbn. now rewrite (leaf_vars s x W). }
    induction s using spe_ind'; intros W St So n l0 Ho; try exact (Lf _ W St So n l0 Ho).
    - cbn [Sample.sample] in Ho. refine (many_all drawn uniform _ _ _ _ _ _ _ Ho). intros i k b Hi Hw Hb. rewrite map_length in Hi. unfold child in Hb. rewrite (nth_indep _ _ (sample ppf (fst (nth i l (SumSPE [], lninf))))) in Hb by now rewrite map_length.
      assert (Hin : In (nth i l (SumSPE [], lninf)) l) by now apply nth_In. rewrite (nth_indep _ _ (sample ppf (fst ((SumSPE [] : spe), (lninf : lg S))))) in Hb by now rewrite map_length.
      rewrite (map_nth (fun c : spe * lg S => sample ppf (fst c)) l (SumSPE [], lninf)) in Hb. set (c := nth i l (SumSPE [], lninf)) in *.
      apply (H c Hin (sum_wf dlaw l W c Hin) (All_In _ _ _ c St Hin) (All_In _ _ _ c So Hin)) in Hb. eapply Forall_impl; [|exact Hb]. intros m (w & P & T). exists w. split.
      + apply (Any_intro _ _ l c Hin). split; auto. rewrite (nth_indep _ _ (snd ((SumSPE [] : spe), (lninf : lg S)))) in Hw by now rewrite map_length. rewrite map_nth in Hw. exact Hw.
      + eapply tells_iff; [|exact T]. intros x. symmetry. now apply (sum_vars dlaw l c W Hin).
    - cbn [Sample.sample] in Ho. apply out_bind_ok in Ho. destruct Ho as (ls & Hls & Ho). apply out_ret_inv in Ho. injection Ho as ->. apply out_mapM in Hls. apply Forall2_map_inv in Hls.
      pose proof (prod_wf dlaw l W) as Wc. destruct W as (_ & Wl & F). apply Forall_forall. intros m Hm. apply merge_in in Hm. destruct Hm as (ms & Hms & ->).
      assert (G : Forall2 (fun c m => exists w, possible c w /\ tells m (vars c) w) l ms).
      { eapply pick_each; [exact Hls|exact Hms|]. cbn. intros c b m Hc Hb Hm. apply (H c Hc (Wc c Hc) (All_In _ _ _ c St Hc) (All_In _ _ _ c So Hc)) in Hb. rewrite Forall_forall in Hb. auto. }
      assert (Z : exists w, All (fun c => possible c w) l /\ Forall2 (fun c m => tells m (vars c) w) l ms).
      { clear -G Wl F. assert (Ws : exists ws, Forall2 possible l ws /\ forall w, Forall2 (fun c wc => forall x, vars c x -> w x = wc x) l ws -> Forall2 (fun c m => tells m (vars c) w) l ms).
        { clear Wl F. induction G as [|c m l ms (wc & P & T) G (ws & IH1 & IH2)]; [exists []; split; [constructor|intros; constructor]|]. exists (wc :: ws). split; [now constructor|]. intros w A. inversion A; subst. constructor; auto. eapply tells_agree; [|exact T]. intros x Hx. symmetry. auto. }
        destruct Ws as (ws & P & K). destruct (glue l Wl F ws P) as (w & Pw & A). exists w. split; auto. }
      destruct Z as (w & Pw & Tw). exists w. split; [exact Pw|]. eapply tells_iff; [|apply (concat_tells (map (fun c => vars c) l) ms)].
      + intros x. cbn [vars]. rewrite any_in, Exists_exists. split.
        * intros (V & HV & Hx). apply in_map_iff in HV. destruct HV as (c & <- & Hc). eauto.
        * intros (c & Hc & Hx). exists (vars c). split; auto. apply in_map_iff. eauto.
      + apply (FOP_map _ _ (fun c : spe => vars c) separate). exact F.
      + now apply Forall2_map_l.
  Qed.
  Theorem sample_total : forall s, wf_spe s -> settled s -> sourced s -> forall n r, outcome (sample ppf s n) r -> exists l, r = Ok l.
  Proof.
    assert (Lf : forall s, wf_leaf s -> settled s -> sourced s -> forall n r, outcome (leaf_sample ppf s n) r -> exists l, r = Ok l).
    { intros s W St So n r H. apply (leaf_subset_total s _ _ _ r W St So) in H; auto. intros x. now apply leaf_vars. }
    induction s using spe_ind'; intros W St So n r Ho; try exact (Lf _ W St So n r Ho).
    - cbn [Sample.sample] in Ho. refine (many_total drawn uniform _ _ _ _ _ _ Ho). intros i k r' Hi Hb. rewrite map_length in Hi. unfold child in Hb. rewrite (nth_indep _ _ (sample ppf (fst ((SumSPE [] : spe), (lninf : lg S))))) in Hb by now rewrite map_length.
      rewrite (map_nth (fun c : spe * lg S => sample ppf (fst c)) l (SumSPE [], lninf)) in Hb. assert (Hin : In (nth i l (SumSPE [], lninf)) l) by now apply nth_In. set (c := nth i l (SumSPE [], lninf)) in *.
      apply (H c Hin (sum_wf dlaw l W c Hin) (All_In _ _ _ c St Hin) (All_In _ _ _ c So Hin) k r'). exact Hb.
    - cbn [Sample.sample] in Ho. apply out_bind in Ho. destruct Ho as [(ls & Hls & Ho)|(e & He & ->)].
      + apply out_ret_inv in Ho. eauto.
      + apply out_mapM_all in He; [destruct He; discriminate|]. intros f r Hf Hr. apply in_map_iff in Hf. destruct Hf as (c & <- & Hc).
        apply (H c Hc (prod_wf dlaw l W c Hc) (All_In _ _ _ c St Hc) (All_In _ _ _ c So Hc) n r Hr).
  Qed.

  (** ** sample_subset *)
  Lemma sumR_pos_ex : forall A (f : A -> R) l, 0 < sumR (map f l) -> exists a, In a l /\ 0 < f a.
  Proof.
    intros A f. induction l as [|a l IH]; cbn; intros H; [lra|]. destruct (Rlt_dec 0 (f a)) as [P|P]; [exists a; split; auto|]. destruct IH as (b & Hb & P'); [unfold sumR; lra|]. exists b. split; auto.
  Qed.
  Lemma possible_ex : forall s, wf_spe s -> exists w, possible s w.
  Proof.
    assert (Lf : forall s, wf_leaf s -> exists w, possible s w).
    { intros s W. assert (E : exists u, leaf_point s u).
      { destruct s as [disc y d supp cond env|y a env|y ws|l|l]; try contradiction; cbn [leaf_point].
        - destruct W as (_ & _ & Wo & Wp & _). destruct (dec (exists u, in_iv supp u)) as [E|E]; auto. exfalso.
          assert (Z : dlaw d (ind (in_iv supp)) = 0).
          { rewrite <- (law_const (d_law _ _ _ Wo) 0). apply law_ext. intros v. apply ind_false. intros K. apply E. eauto. }
          destruct cond; lra.
        - eauto.
        - destruct W as (_ & Pw & T). destruct (sumR_pos_ex _ (fun p => Q2R (snd p)) ws) as (p & Hp & Pp).
          { apply Qeq_eqR in T. rewrite Qsum_R, map_map in T. rewrite T. unfold Q2R; cbn; lra. }
          exists (FStr (fst p)), p. split; auto. split; auto. apply Rlt_Qlt. now rewrite RMicromega.Q2R_0. }
      destruct E as (u & P). exists (leaf_place s w0 u). now apply leaf_possible. }
    induction s using spe_ind'; intros W; try exact (Lf _ W).
    - pose proof (sum_wf dlaw l W) as Wc. destruct W as (_ & T & _). destruct (sumR_pos_ex _ (fun c => toP (snd c)) l) as (c & Hc & P); [rewrite T; lra|]. destruct (H c Hc (Wc c Hc)) as (w & Pw). exists w. apply (Any_intro _ _ l c Hc). auto.
    - pose proof (prod_wf dlaw l W) as Wc. destruct W as (_ & Wl & F). assert (E : exists ws, Forall2 possible l ws).
      { clear Wl F. induction l as [|c l IH]; [exists []; constructor|]. destruct IH as (ws & Hw); [intros; apply H; auto; now right|intros; apply Wc; now right|]. destruct (H c) as (w & Pw); [now left|apply Wc; now left|]. exists (w :: ws). now constructor. }
      destruct E as (ws & Hw). destruct (glue l Wl F ws Hw) as (w & P & _). exists w. exact P.
  Qed.
  Lemma owner_spec : forall (l : list spe) x i, owner l x = Some i -> (i < List.length l)%nat /\ vars (nth i l (SumSPE [])) x.
  Proof.
    induction l as [|c l IH]; intros x i H; [discriminate|]. cbn in H. destruct (owner l x) as [j|] eqn:E.
    - injection H as <-. destruct (IH x j E) as (A & B). split; [cbn; lia|]. exact B.
    - destruct (existsb (String.eqb x) (get_symbols c)) eqn:Ex; [|discriminate]. injection H as <-. split; [cbn; lia|]. cbn. apply existsb_exists in Ex. destruct Ex as (y & Hy & Ey). apply String.eqb_eq in Ey. subst y. now apply (get_symbols_vars dlaw).
  Qed.
  Lemma owner_ex : forall (l : list spe) x, vars (ProductSPE l) x -> exists i, owner l x = Some i.
  Proof.
    induction l as [|c l IH]; intros x H; [contradiction|]. cbn. destruct (owner l x) as [j|] eqn:E; [eauto|]. destruct H as [H|H].
    - assert (K : existsb (String.eqb x) (get_symbols c) = true) by (apply existsb_exists; exists x; split; [now apply (get_symbols_vars dlaw)|apply String.eqb_refl]). rewrite K. eauto.
    - destruct (IH x H) as (i & K). congruence.
  Qed.
  Lemma owners_spec : forall (l : list spe) xs is_, owners l xs = Ok is_ -> forall i, In i is_ <-> exists x, In x xs /\ owner l x = Some i.
  Proof.
    intros l. induction xs as [|x xs IH]; intros is_ H i; cbn in H.
    - injection H as <-. split; [intros []|intros (x & [] & _)].
    - destruct (owner l x) as [j|] eqn:E; [|discriminate]. inv_bind H. injection H as <-. cbn. rewrite (IH r E0 i). split.
      + intros [->|(y & Hy & Ey)]; eauto.
      + intros (y & [->|Hy] & Ey); [left; congruence|eauto].
  Qed.
  Lemma owners_total : forall (l : list spe) xs, (forall x, In x xs -> vars (ProductSPE l) x) -> exists is_, owners l xs = Ok is_.
  Proof.
    intros l. induction xs as [|x xs IH]; intros H; cbn; [eauto|]. destruct (owner_ex l x) as (i & E); [apply H; now left|]. rewrite E. destruct IH as (r & Er); [intros; apply H; now right|]. rewrite Er. cbn. eauto.
  Qed.
  Lemma mine_spec : forall (l : list spe) xs i x, In x (mine l xs i) <-> In x xs /\ owner l x = Some i.
  Proof.
    intros l xs i x. unfold mine. rewrite filter_In. split; intros (A & B); split; auto.
    - destruct (owner l x); [|discriminate]. apply Nat.eqb_eq in B. congruence.
    - rewrite B. apply Nat.eqb_refl.
  Qed.
  Lemma fun_of : forall (P : nat -> sdict -> asg -> Prop) ks ms, NoDup ks -> Forall2 (fun i m => exists w, P i m w) ks ms ->
    exists (mf : nat -> sdict) (wf : nat -> asg), ms = map mf ks /\ forall i, In i ks -> P i (mf i) (wf i).
  Proof.
    intros P ks ms Nd H. induction H as [|i m ks ms (w & Hw) H IH].
    - exists (fun _ => []), (fun _ => w0). split; auto. intros i [].
    - inversion Nd; subst. destruct IH as (mf & wf & -> & K); auto. exists (fun j => if Nat.eqb j i then m else mf j), (fun j => if Nat.eqb j i then w else wf j). split.
      + cbn. rewrite Nat.eqb_refl. f_equal. apply map_ext_in. intros j Hj. destruct (Nat.eqb_spec j i) as [->|]; [contradiction|reflexivity].
      + intros j [->|Hj]; [now rewrite Nat.eqb_refl|]. destruct (Nat.eqb_spec j i) as [->|]; [contradiction|auto].
  Qed.
  Lemma list_of : forall (l : list spe) (wf : nat -> asg) ks, (forall i, In i ks -> (i < List.length l)%nat -> possible (nth i l (SumSPE [])) (wf i)) -> (forall c, In c l -> wf_spe c) ->
    exists ws, Forall2 possible l ws /\ forall i, In i ks -> (i < List.length l)%nat -> nth i ws w0 = wf i.
  Proof.
    induction l as [|c l IH]; intros wf ks H W; [exists []; split; [constructor|intros i _ K; cbn in K; lia]|].
    destruct (IH (fun i => wf (Datatypes.S i)) (map Nat.pred (filter (fun i => negb (Nat.eqb i 0)) ks))) as (ws & A & B).
    - intros i Hi Hl. apply in_map_iff in Hi. destruct Hi as (j & Ej & Hj). apply filter_In in Hj. destruct Hj as (Hj & Nj). destruct j as [|j]; [discriminate|]. cbn in Ej. subst j. apply (H (Datatypes.S i)); auto. cbn. lia.
    - intros d Hd. apply W. now right.
    - assert (E : exists w, possible c w /\ (In 0%nat ks -> w = wf 0%nat)).
      { destruct (dec (In 0%nat ks)) as [K|K].
        - exists (wf 0%nat). split; auto. apply (H 0%nat); auto. cbn. lia.
        - destruct (possible_ex c) as (w & Pw); [apply W; now left|]. exists w. split; auto. tauto. }
      destruct E as (w & Pw & Ew). exists (w :: ws). split; [now constructor|]. intros [|i] Hi Hl; cbn; auto. apply B; [|cbn in Hl; lia]. apply in_map_iff. exists (Datatypes.S i). split; auto. apply filter_In. auto.
  Qed.
  Lemma Forall2_nth : forall A B (P : A -> B -> Prop) l m a b, Forall2 P l m -> forall i, (i < List.length l)%nat -> P (nth i l a) (nth i m b).
  Proof. intros A B P l m a b H. induction H; intros i Hi; cbn in Hi; [lia|]. destruct i; cbn; auto. apply IHForall2. lia. Qed.
  Lemma separate_mine : forall (l : list spe) xs ks, NoDup ks -> ForallOrdPairs separate (map (fun i x => In x (mine l xs i)) ks).
  Proof.
    intros l xs ks Nd. apply (FOP_map _ _ (fun i x => In x (mine l xs i)) separate). eapply FOP_weaken; [|apply NoDup_FOP; exact Nd]. cbn. intros i j _ _ Ne x Hi Hj. apply mine_spec in Hi, Hj. destruct Hi as (_ & Hi), Hj as (_ & Hj). congruence.
  Qed.
  Lemma nth_map_in : forall A B (f : A -> B) (l : list A) i b a, (i < List.length l)%nat -> nth i (map f l) b = f (nth i l a).
  Proof. intros A B f l i b a H. rewrite (nth_indep _ _ (f a)) by now rewrite map_length. apply map_nth. Qed.
  Theorem subset_fits : forall s, wf_spe s -> settled s -> sourced s -> forall b xs n l, outcome (sample_subset ppf s b xs n) (Ok l) ->
    Forall (fun m => fits s (fun x => In x xs) m) l.
  Proof.
    induction s using spe_ind'; intros W St So b xs n l0 Ho; try exact (leaf_subset_fits _ _ _ _ _ W St So Ho).
    - cbn [Sample.sample_subset] in Ho. refine (many_all drawn uniform _ _ _ _ _ _ _ Ho). intros i k b0 Hi Hw Hb. rewrite map_length in Hi. unfold child in Hb. rewrite (nth_map_in _ _ (fun c : spe * lg S => sample_subset ppf (fst c) b xs) l i _ (SumSPE [], lninf)) in Hb by auto.
      assert (Hin : In (nth i l (SumSPE [], lninf)) l) by now apply nth_In. rewrite (nth_map_in _ _ snd l i _ (SumSPE [], lninf)) in Hw by auto. set (c := nth i l (SumSPE [], lninf)) in *.
      apply (H c Hin (sum_wf dlaw l W c Hin) (All_In _ _ _ c St Hin) (All_In _ _ _ c So Hin)) in Hb. eapply Forall_impl; [|exact Hb]. intros m (w & P & T). exists w. split; auto.
      apply (Any_intro _ _ l c Hin). split; auto.
    - cbn [Sample.sample_subset] in Ho. apply out_bind_ok in Ho. destruct Ho as (is_ & Hi & Ho). apply out_lift in Hi. symmetry in Hi. apply out_bind_ok in Ho. destruct Ho as (ls & Hls & Ho). apply out_ret_inv in Ho. injection Ho as ->. apply out_mapM in Hls.
      pose proof (prod_wf dlaw l W) as Wc. destruct W as (_ & Wl & F). apply Forall_forall. intros m Hm. apply merge_in in Hm. destruct Hm as (ms & Hms & ->).
      destruct (keys_of_spec is_) as (Nd & Hk).
      assert (Hlt : forall i, In i (keys_of is_) -> (i < List.length l)%nat).
      { intros i K. apply Hk in K. apply (owners_spec l xs is_ Hi) in K. destruct K as (x & _ & E). now apply owner_spec in E. }
      assert (G : Forall2 (fun i m => exists w, possible (nth i l (SumSPE [])) w /\ tells m (fun x => In x (mine l xs i)) w) (keys_of is_) ms).
      { eapply pick_each; [exact Hls|exact Hms|]. cbn. intros i b0 m Hin Hb Hm. pose proof (Hlt i Hin) as Li. rewrite (nth_map_in _ _ (fun c => sample_subset ppf c) l i _ (SumSPE [])) in Hb by auto.
        assert (Hc : In (nth i l (SumSPE [])) l) by now apply nth_In. apply (H _ Hc (Wc _ Hc) (All_In _ _ _ _ St Hc) (All_In _ _ _ _ So Hc)) in Hb. rewrite Forall_forall in Hb. auto. }
      destruct (fun_of _ _ _ Nd G) as (mf & wf & -> & K). destruct (list_of l wf (keys_of is_)) as (ws & Pw & Ew); [intros i Hin _; apply K; auto|exact Wc|].
      destruct (glue l Wl F ws Pw) as (w & P & A). exists w. split; [exact P|]. eapply tells_iff; [|apply (concat_tells (map (fun i x => In x (mine l xs i)) (keys_of is_)))].
      + intros x. cbn beta. rewrite Exists_exists. split.
        * intros (V & HV & Hx). apply in_map_iff in HV. destruct HV as (i & <- & _). now apply mine_spec in Hx.
        * intros Hx. assert (E : exists i, owner l x = Some i).
          { clear -Hi Hx. revert is_ Hi. induction xs as [|y xs IH]; intros is_ Hi; [contradiction|]. cbn in Hi. destruct (owner l y) eqn:E; [|discriminate]. inv_bind Hi. destruct Hx as [->|Hx]; [eauto|]. eapply IH; eauto. }
          destruct E as (i & E). exists (fun x => In x (mine l xs i)). split; [|now apply mine_spec]. apply in_map_iff. exists i. split; auto. apply Hk. apply (owners_spec l xs is_ Hi). eauto.
      + now apply separate_mine.
      + apply Forall2_map_l. clear -dlaw K A Ew Hlt. revert K Hlt Ew. generalize (keys_of is_) as ks. intros ks. assert (Z : forall ks', incl ks' ks -> (forall i, In i ks -> possible (nth i l (SumSPE [])) (wf i) /\ tells (mf i) (fun x => In x (mine l xs i)) (wf i)) ->
          (forall i, In i ks -> (i < List.length l)%nat) -> (forall i, In i ks -> (i < List.length l)%nat -> nth i ws w0 = wf i) -> Forall2 (fun i m => tells m (fun x => In x (mine l xs i)) w) ks' (map mf ks')); [|intros; apply Z; auto; apply incl_refl].
        induction ks' as [|i ks' IH]; intros Sub K Hlt Ew; cbn; constructor; [|apply IH; auto; intros j Hj; apply Sub; now right]. assert (Hin : In i ks) by (apply Sub; now left). destruct (K i Hin) as (_ & T). eapply tells_agree; [|exact T].
        intros x Hx. rewrite <- (Ew i Hin (Hlt i Hin)). symmetry. apply (Forall2_nth _ _ _ l ws (SumSPE []) w0 A i (Hlt i Hin)). apply mine_spec in Hx. destruct Hx as (_ & E). now apply owner_spec in E.
  Qed.
  Theorem subset_total : forall s, wf_spe s -> settled s -> sourced s -> forall b xs n r, (forall x, In x xs -> vars s x) -> outcome (sample_subset ppf s b xs n) r -> exists l, r = Ok l.
  Proof.
    induction s using spe_ind'; intros W St So b xs n r Hxs Ho; try exact (leaf_subset_total _ _ _ _ _ W St So Hxs Ho).
    - cbn [Sample.sample_subset] in Ho. refine (many_total drawn uniform _ _ _ _ _ _ Ho). intros i k r' Hi Hb. rewrite map_length in Hi. unfold child in Hb. rewrite (nth_map_in _ _ (fun c : spe * lg S => sample_subset ppf (fst c) b xs) l i _ (SumSPE [], lninf)) in Hb by auto.
      assert (Hin : In (nth i l (SumSPE [], lninf)) l) by now apply nth_In. set (c := nth i l (SumSPE [], lninf)) in *.
      refine (H c Hin (sum_wf dlaw l W c Hin) (All_In _ _ _ c St Hin) (All_In _ _ _ c So Hin) b xs k r' _ Hb). intros x Hx. apply (sum_vars dlaw l c W Hin). auto.
    - cbn [Sample.sample_subset] in Ho. destruct (owners_total l xs Hxs) as (is_ & Hi). rewrite Hi in Ho. cbn [lift gbind] in Ho. apply out_bind in Ho. destruct Ho as [(ls & Hls & Ho)|(e & He & ->)].
      + apply out_ret_inv in Ho. eauto.
      + apply out_mapM_all in He; [destruct He; discriminate|]. intros i r Hin Hr. destruct (keys_of_spec is_) as (Nd & Hk). apply Hk in Hin. apply (owners_spec l xs is_ Hi) in Hin. destruct Hin as (x & _ & E). apply owner_spec in E. destruct E as (Li & _).
        rewrite (nth_map_in _ _ (fun c => sample_subset ppf c) l i _ (SumSPE [])) in Hr by auto. assert (Hc : In (nth i l (SumSPE [])) l) by now apply nth_In.
        refine (H _ Hc (prod_wf dlaw l W _ Hc) (All_In _ _ _ _ St Hc) (All_In _ _ _ _ So Hc) false (mine l xs i) n r _ Hr). intros y Hy. apply mine_spec in Hy. destruct Hy as (_ & E). now apply owner_spec in E.
  Qed.

  (** ** sample_func *)
  Lemma fval_sv : forall v u, fval_of v = Some u -> v = sv_of u.
  Proof. intros [x|s|o] u H; cbn in H; try discriminate; injection H as <-; reflexivity. Qed.
  Lemma func_fits : forall A (s : spe) args (f : list sv -> A) ms l (V : string -> Prop), (forall x, In x args -> V x) -> Forall (fun m => fits s V m) ms -> func_evaluate s args f ms = Ok l ->
    Forall (fun a => exists w, possible s w /\ a = f (map (fun x => sv_of (w x)) args)) l /\ List.length l = List.length ms.
  Proof.
    intros A s args f ms l V Ha Hm H. unfold func_evaluate in H. inv_bind H. split; [|now apply mapM_length in H]. apply mapM_Forall2 in H. eapply Forall2_right; [exact H|]. cbn. intros m a Hin Em. rewrite Forall_forall in Hm. destruct (Hm m Hin) as (w & P & T & _).
    exists w. split; auto. inv_bind Em. injection Em as <-. f_equal. clear -Ha T E0. revert r0 E0. induction args as [|x args IH]; intros r0 E0; cbn in E0; [now injection E0 as <-|]. destruct (T x) as (v & Ev & Fv); [apply Ha; now left|]. rewrite Ev in E0. cbn in E0. inv_bind E0. injection E0 as <-. cbn. f_equal; [now apply fval_sv|]. apply IH; auto. intros; apply Ha; now right.
  Qed.
  Lemma func_total : forall A (s : spe) args (f : list sv -> A) ms (V : string -> Prop), (forall x, In x args -> V x /\ vars s x) -> Forall (fun m => fits s V m) ms -> exists l, func_evaluate s args f ms = Ok l.
  Proof.
    intros A s args f ms V Ha Hm. unfold func_evaluate, func_symbols.
    assert (E : forallb (fun x => existsb (String.eqb x) (get_symbols s)) args = true).
    { apply forallb_forall. intros x Hx. apply existsb_exists. exists x. split; [|apply String.eqb_refl]. apply (get_symbols_vars dlaw). now apply Ha. }
    rewrite E. cbn. apply mapM_total. intros m Hin. rewrite Forall_forall in Hm. destruct (Hm m Hin) as (w & _ & T & _).
    destruct (mapM_total _ _ (fun x => match sget m x with Some v => Ok v | None => Raise KeyError end) args) as (vs & Ev).
    { intros x Hx. destruct (T x) as (v & Ev & _); [now apply Ha|]. rewrite Ev. eauto. }
    rewrite Ev. cbn. eauto.
  Qed.
  Lemma func_ok : forall A (s : spe) args (f : list sv -> A) ms l, func_evaluate s args f ms = Ok l -> forall x, In x args -> vars s x.
  Proof.
    intros A s args f ms l H x Hx. unfold func_evaluate, func_symbols in H. destruct (forallb _ args) eqn:E; [|discriminate]. rewrite forallb_forall in E. apply E in Hx. apply existsb_exists in Hx. destruct Hx as (y & Hy & Ey). apply String.eqb_eq in Ey. subst y. now apply (get_symbols_vars dlaw).
  Qed.
  Theorem sample_func_fits : forall s, wf_spe s -> settled s -> sourced s -> forall A args (f : list sv -> A) n l, outcome (sample_func ppf s args f n) (Ok l) ->
    Forall (fun a => exists w, possible s w /\ a = f (map (fun x => sv_of (w x)) args)) l.
  Proof.
    assert (Lf : forall s A args (f : list sv -> A) n l, wf_leaf s -> settled s -> sourced s -> outcome (gbind (leaf_sample ppf s n) (fun ms => lift (func_evaluate s args f ms))) (Ok l) ->
      Forall (fun a => exists w, possible s w /\ a = f (map (fun x => sv_of (w x)) args)) l).
    { intros s A args f n l W St So H. apply out_bind_ok in H. destruct H as (ms & Hms & H). apply out_lift in H. symmetry in H. apply (leaf_subset_fits s _ _ _ _ W St So) in Hms. eapply func_fits; [|exact Hms|exact H]. intros x Hx. cbn. apply leaf_vars; auto. eapply func_ok; eauto. }
    induction s using spe_ind'; intros W St So A args f n l0 Ho; try exact (Lf _ _ _ _ _ _ W St So Ho).
    - cbn [Sample.sample_func] in Ho. refine (many_all drawn uniform _ _ _ _ _ _ _ Ho). intros i k b0 Hi Hw Hb. rewrite map_length in Hi. unfold child in Hb. rewrite (nth_map_in _ _ (fun c : spe * lg S => sample_func ppf (fst c) args f) l i _ (SumSPE [], lninf)) in Hb by auto.
      assert (Hin : In (nth i l (SumSPE [], lninf)) l) by now apply nth_In. rewrite (nth_map_in _ _ snd l i _ (SumSPE [], lninf)) in Hw by auto. set (c := nth i l (SumSPE [], lninf)) in *.
      apply (H c Hin (sum_wf dlaw l W c Hin) (All_In _ _ _ c St Hin) (All_In _ _ _ c So Hin)) in Hb. eapply Forall_impl; [|exact Hb]. intros a (w & P & T). exists w. split; auto.
      apply (Any_intro _ _ l c Hin). split; auto.
    - cbn [Sample.sample_func] in Ho. apply out_bind_ok in Ho. destruct Ho as (u & _ & Ho). apply out_bind_ok in Ho. destruct Ho as (ms & Hms & Ho). apply out_lift in Ho. symmetry in Ho. apply (subset_fits _ W St So) in Hms. eapply func_fits; [|exact Hms|exact Ho]. cbn. auto.
  Qed.
  Theorem sample_func_total : forall s, wf_spe s -> settled s -> sourced s -> forall A args (f : list sv -> A) n r, (forall x, In x args -> vars s x) -> outcome (sample_func ppf s args f n) r -> exists l, r = Ok l.
  Proof.
    assert (Lf : forall s A args (f : list sv -> A) n r, wf_leaf s -> settled s -> sourced s -> (forall x, In x args -> vars s x) -> outcome (gbind (leaf_sample ppf s n) (fun ms => lift (func_evaluate s args f ms))) r -> exists l, r = Ok l).
    { intros s A args f n r W St So Ha H. apply out_bind in H. destruct H as [(ms & Hms & H)|(e & He & ->)].
      - apply out_lift in H. subst r. apply (leaf_subset_fits s _ _ _ _ W St So) in Hms. eapply func_total; [|exact Hms]. intros x Hx. cbn. split; auto. apply leaf_vars; auto.
      - apply (leaf_subset_total s _ _ _ _ W St So) in He; [destruct He; discriminate|]. intros x. now apply leaf_vars. }
    induction s using spe_ind'; intros W St So A args f n r Ha Ho; try exact (Lf _ _ _ _ _ _ W St So Ha Ho).
    - cbn [Sample.sample_func] in Ho. refine (many_total drawn uniform _ _ _ _ _ _ Ho). intros i k r' Hi Hb. rewrite map_length in Hi. unfold child in Hb. rewrite (nth_map_in _ _ (fun c : spe * lg S => sample_func ppf (fst c) args f) l i _ (SumSPE [], lninf)) in Hb by auto.
      assert (Hin : In (nth i l (SumSPE [], lninf)) l) by now apply nth_In. set (c := nth i l (SumSPE [], lninf)) in *.
      refine (H c Hin (sum_wf dlaw l W c Hin) (All_In _ _ _ c St Hin) (All_In _ _ _ c So Hin) A args f k r' _ Hb). intros x Hx. apply (sum_vars dlaw l c W Hin). auto.
    - cbn [Sample.sample_func] in Ho. unfold func_symbols in Ho.
      assert (E : forallb (fun x => existsb (String.eqb x) (get_symbols (ProductSPE l))) args = true).
      { apply forallb_forall. intros x Hx. apply existsb_exists. exists x. split; [|apply String.eqb_refl]. apply (get_symbols_vars dlaw). now apply Ha. }
      rewrite E in Ho. cbn [lift] in Ho. change (gbind (Ret tt) ?k) with (k tt) in Ho. apply out_bind in Ho. destruct Ho as [(ms & Hms & Ho)|(e & He & ->)].
      + apply out_lift in Ho. subst r. apply (subset_fits _ W St So) in Hms. eapply func_total; [|exact Hms]. intros x Hx. split; [exact Hx|now apply Ha].
      + apply (subset_total _ W St So) in He; auto. destruct He; discriminate.
  Qed.
  Lemma sample_func_length : forall s, wf_spe s -> forall A args (f : list sv -> A) n l, args <> [] -> outcome (sample_func ppf s args f n) (Ok l) -> List.length l = n.
  Proof.
    assert (Lf : forall s A args (f : list sv -> A) n l, outcome (gbind (leaf_sample ppf s n) (fun ms => lift (func_evaluate s args f ms))) (Ok l) -> List.length l = n).
    { intros s A args f n l H. apply out_bind_ok in H. destruct H as (ms & Hms & H). apply out_lift in H. symmetry in H. apply leaf_subset_length in Hms. unfold func_evaluate in H. inv_bind H. apply mapM_length in H. congruence. }
    induction s using spe_ind'; intros W A args f n l0 Ne Ho; try exact (Lf _ _ _ _ _ _ Ho).
    - cbn [Sample.sample_func] in Ho. eapply many_count; [|exact Ho]. intros i k b. apply child_length. intros g Hf. apply in_map_iff in Hf. destruct Hf as (c & <- & Hc). intros k' b'. apply H; auto. now apply (sum_wf dlaw l).
    - cbn [Sample.sample_func] in Ho. apply out_bind_ok in Ho. destruct Ho as (u & _ & Ho). apply out_bind_ok in Ho. destruct Ho as (ms & Hms & Ho). apply out_lift in Ho. symmetry in Ho. apply subset_length in Hms; auto. unfold func_evaluate in Ho. inv_bind Ho. apply mapM_length in Ho. congruence.
  Qed.
End Sim.
