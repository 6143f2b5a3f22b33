(** Conditioning a leaf: contiguous runs of integers, restricted leaves, nominal leaves. *)
From Coq Require Import List Bool String Reals Lra Lia ZArith QArith Qreals FunctionalExtensionality Permutation.
From Verif Require Import Base Num Sets SetSpec SetIv SetProofs SetOr SetOps SetAlg SetBuilt
  Poly Trans TransSpec TransFacts PolyProofs InvProofs InvMain EvProofs ArithProofs
  Dnf DnfSpec DnfProofs DnfUnion Logs Spe SpeSpec SpeFacts SpeRect LeafProofs LeafEvents.
Import ListNotations.
Local Open Scope R_scope.

Section Runs.
  Context {N : numsys}.
  Notation enum := (ext (num N)).
  (** consecutive numbers from r on *)
  Definition run (r : R) (b : list enum) : Prop := map eR b = map (fun k => Fin (r + INR k)) (seq 0 (List.length b)).
  Lemma run_snoc : forall r b y, run r b -> eR y = Fin (r + INR (List.length b)) -> run r (b ++ [y]).
  Proof.
    intros r b y H E. unfold run in *. rewrite app_length, Nat.add_1_r, seq_S, !map_app, H. simpl. now rewrite E.
  Qed.
  Lemma run_one : forall (y : enum) r, eR y = Fin r -> run r [y].
  Proof. intros y r H. unfold run. simpl. rewrite H, Rplus_0_r. reflexivity. Qed.
  Lemma run_nth : forall r b y k, run r b -> nth_error b k = Some y -> eR y = Fin (r + INR k).
  Proof.
    intros r b y k H E. unfold run in H. assert (K := map_nth_error eR k b E). rewrite H in K. assert (L : (k < List.length b)%nat) by (apply nth_error_Some; congruence).
    rewrite (map_nth_error _ k (seq 0 (List.length b)) (d := k)) in K; [congruence|]. rewrite (nth_error_nth' _ 0%nat) by (now rewrite seq_length). now rewrite seq_nth.
  Qed.
  (** the loop keeps the invariant: the current block is a run that ends in [last] *)
  Lemma contiguous_runs : forall l last cur r, Forall finite l -> run r (rev (last :: cur)) ->
    Forall (fun b => b <> [] /\ exists r, run r b) (contiguous last (last :: cur) l) /\ List.concat (contiguous last (last :: cur) l) = rev (last :: cur) ++ l.
  Proof.
    induction l as [|y l IH]; intros last cur r Fl H; cbn [contiguous].
    - split; [|reflexivity]. constructor; [|constructor]. split; [|eauto]. cbn [rev]. destruct (rev cur); discriminate.
    - inversion Fl as [|? ? (a & Ea) Fl']; subst. destruct (eeqb (Fin a) (eadd_bool last true)) eqn:E.
      + apply eeqb_eR in E. destruct (IH (Fin a) (last :: cur) r Fl') as (A & B).
        * cbn [rev] in *. apply run_snoc; auto. rewrite E. assert (K : nth_error (rev cur ++ [last]) (List.length (rev cur)) = Some last) by (rewrite nth_error_app2, Nat.sub_diag by lia; reflexivity).
          apply (run_nth r) in K; auto. rewrite app_length, Nat.add_1_r, S_INR. cbn [eadd_bool]. destruct last as [|c|]; simpl in *; try discriminate. rewrite nadd_ok, nint_ok. injection K as ->. f_equal. ring.
        * split; [exact A|]. rewrite B. cbn [rev]. now rewrite <- !app_assoc.
      + destruct (IH (Fin a) [] (toR a) Fl') as (A & B); [now apply run_one|]. split.
        * constructor; auto. split; [|eauto]. cbn [rev]. destruct (rev cur); discriminate.
        * cbn [List.concat]. rewrite B. reflexivity.
  Qed.
  Lemma partition_runs : forall vs : list enum, Forall finite vs ->
    Forall (fun b => b <> [] /\ exists r, run r b) (partition_finite_real_contiguous vs) /\ List.concat (partition_finite_real_contiguous vs) = sort eleb vs.
  Proof.
    intros vs F. unfold partition_finite_real_contiguous. assert (Fs : Forall finite (sort eleb vs)).
    { apply Forall_forall. intros x Hx. apply sort_In in Hx. rewrite Forall_forall in F. auto. }
    destruct (sort eleb vs) as [|y l]; [split; [constructor|reflexivity]|]. inversion Fs as [|? ? (a & Ea) Fl]; subst.
    apply (contiguous_runs l (Fin a) [] (toR a)); auto. now apply run_one.
  Qed.
  (** the range of a block has its integers *)
  Lemma last_nth_error : forall A (l : list A) d, l <> [] -> nth_error l (List.length l - 1) = Some (last l d).
  Proof.
    intros A l d H. destruct (exists_last H) as (m & a & ->). rewrite last_last, app_length, Nat.add_1_r. simpl. rewrite Nat.sub_0_r, nth_error_app2, Nat.sub_diag by lia. reflexivity.
  Qed.
  Lemma range_block : forall r y tl i, run r (y :: tl) -> Range (N:=N) y (last (y :: tl) y) = Ok i ->
    wf_iv i /\ integer_end (iv_a i) /\ integer_end (iv_b i) /\ eR (iv_a i) = Fin r /\ eR y = Fin r /\
    forall k, in_iv i (FNum (IZR k)) <-> exists x, In x (y :: tl) /\ eR x = Fin (IZR k).
  Proof.
    intros r y tl i H E. set (b := y :: tl) in *. assert (Hy : eR y = Fin r).
    { rewrite (run_nth r b y 0%nat H eq_refl). simpl. now rewrite Rplus_0_r. }
    assert (Hl : eR (last b y) = Fin (r + INR (List.length b - 1))) by (apply (run_nth r b); auto; apply last_nth_error; discriminate).
    set (z := last b y) in *. destruct y as [|a|]; simpl in Hy; try discriminate. injection Hy as Hr. destruct z as [|c|]; simpl in Hl; try discriminate. injection Hl as Hc.
    unfold Range in E. cbn [int_or_isinf_neg int_or_isinf_pos bind] in E. unfold passert in E.
    destruct (is_int a) eqn:Ia; [|discriminate]. destruct (is_int c) eqn:Ic; [|discriminate]. cbn [bind] in E.
    apply is_int_int in Ia. destruct Ia as (n & Hn). apply is_int_int in Ic. destruct Ic as (m & Hm).
    assert (Mn : (m = n + Z.of_nat (List.length b - 1))%Z). { apply eq_IZR. rewrite plus_IZR, <- INR_IZR_INZ, <- Hm, <- Hn, Hc, Hr. reflexivity. }
    unfold Interval_ in E. inv_bind E. cbn [is_ninf orb] in E.
    assert (Pts : forall k, (exists x, In x b /\ eR x = Fin (IZR k)) <-> (n <= k <= m)%Z).
    { intro k. split.
      - intros (x & Hx & Ex). apply In_nth_error in Hx. destruct Hx as (j & Hj). assert (L : (j < List.length b)%nat) by (apply nth_error_Some; congruence). apply (run_nth r) in Hj; auto.
        rewrite Hj in Ex. injection Ex as Ex. assert (k = n + Z.of_nat j)%Z by (apply eq_IZR; rewrite plus_IZR, <- INR_IZR_INZ; lra). lia.
      - intros K. destruct (nth_error b (Z.to_nat (k - n))) as [x|] eqn:Ex.
        + exists x. split; [eapply nth_error_In; eauto|]. rewrite (run_nth r b x _ H Ex). f_equal. rewrite INR_IZR_INZ, Z2Nat.id by lia. rewrite minus_IZR. lra.
        + apply nth_error_None in Ex. assert (1 <= List.length b)%nat by (unfold b; simpl; lia). lia. }
    destruct (eeqb (Fin a) (Fin c)) eqn:Eq; cbn [eadd_bool is_pinf orb] in E; injection E as <-; cbn [iv_a iv_b iv_lo iv_ro] in *.
    - apply eeqb_eR in Eq. simpl in Eq. injection Eq as Eq. assert (m = n) by (apply eq_IZR; congruence). refine (conj (conj _ (conj _ _)) (conj _ (conj _ (conj _ (conj _ (fun k => conj _ _)))))); try discriminate; simpl.
      + unfold elt. simpl. rewrite nadd_ok, nint_ok. lra.
      + eauto.
      + exists (m + 1)%Z. rewrite nadd_ok, nint_ok, plus_IZR. lra.
      + now rewrite Hr.
      + now rewrite Hr.
      + intros K. rewrite in_iv_num in K. simpl in K. rewrite nadd_ok, nint_ok in K. apply Pts. destruct K as (K1 & K2). rewrite Hn in K1. rewrite Hm in K2. apply le_IZR in K1. rewrite <- plus_IZR in K2. apply lt_IZR in K2. lia.
      + intros K. apply Pts in K. rewrite in_iv_num. simpl. rewrite nadd_ok, nint_ok, Hn, Hm, <- plus_IZR. split; [apply IZR_le|apply IZR_lt]; lia.
    - unfold passert in E0. destruct (eltb _ _) eqn:Lt; [|discriminate]. apply eltb_elt in Lt. simpl in Lt. refine (conj (conj _ (conj _ _)) (conj _ (conj _ (conj _ (conj _ (fun k => conj _ _)))))); try discriminate; simpl; auto.
      + eauto.
      + eauto.
      + now rewrite Hr.
      + now rewrite Hr.
      + intros K. rewrite in_iv_num in K. simpl in K. apply Pts. destruct K as (K1 & K2). rewrite Hn in K1. rewrite Hm in K2. apply le_IZR in K1. apply le_IZR in K2. lia.
      + intros K. apply Pts in K. rewrite in_iv_num. simpl. rewrite Hn, Hm. split; apply IZR_le; lia.
  Qed.
  (** membership in the ranges, as indicators *)
  Lemma range_ind : forall r y tl i k, run r (y :: tl) -> Range (N:=N) y (last (y :: tl) y) = Ok i ->
    ind (in_iv i) (FNum (IZR k)) = sumR (map (fun x => ind (fun v => exists r, eR x = Fin r /\ v = FNum r) (FNum (IZR k))) (y :: tl)).
  Proof.
    intros r y tl i k H E. destruct (range_block r y tl i H E) as (_ & _ & _ & _ & _ & P). rewrite (ind_FOP _ _ (fun x v => exists r, eR x = Fin r /\ v = FNum r)).
    - apply ind_eq. rewrite P. split; [intros (x & Hx & Ex); eauto|intros (x & Hx & r' & Ex & K); injection K as <-; eauto].
    - assert (Nd : NoDup (map eR (y :: tl))).
      { unfold run in H. rewrite H. apply FinFun.Injective_map_NoDup; [|apply seq_NoDup]. intros p q K. injection K as K. apply INR_eq. lra. }
      apply NoDup_FOP, FOP_map in Nd. eapply FOP_weaken; [|exact Nd]. intros p q _ _ K ((r1 & E1 & F1) & r2 & E2 & F2). rewrite F1 in F2. injection F2 as ->. congruence.
  Qed.
  Lemma sumR_concat_map : forall A (f : A -> R) ls, sumR (map f (List.concat ls)) = sumR (map (fun l => sumR (map f l)) ls).
  Proof. induction ls as [|l ls IH]; simpl; auto. rewrite map_app, sumR_app, IH. reflexivity. Qed.
  Lemma Forall2_sumR : forall A B (f : A -> R) (g : B -> R) l m, Forall2 (fun a b => g b = f a) l m -> sumR (map g m) = sumR (map f l).
  Proof. induction 1; simpl; auto. unfold sumR in *. congruence. Qed.
End Runs.

Section Flat.
  Context {N : numsys} {S : logsys} {D : distsys N S} (dlaw : dist D -> (fval -> R) -> R) (d : dist D).
  Notation enum := (ext (num N)).
  (** flatten_values_contiguous: intervals that together are the set, on integers if discrete *)
  Definition flat_ok (disc : bool) (supp : interval N) (i : interval N) : Prop :=
    wf_iv i /\ (disc = true -> (rounds (iv_a i) /\ rounds (iv_b i) /\ ele (Fin 0) (eR (iv_a i))) \/ dlaw d (ind above_zero) = 1).
  Lemma flatten_basic_ok : forall disc supp b l, (disc = true -> ele (Fin 0) (eR (iv_a supp)) \/ dlaw d (ind above_zero) = 1) -> piece dlaw disc d b -> (forall v, bmem v b -> bmem v (BInt supp)) ->
    flatten_basic disc b = Ok l ->
    Forall (flat_ok disc supp) l /\ forall v, (disc = true -> is_integer v) -> sumR (map (fun i => ind (in_iv i) v) l) = ind (fun v => fm v (PB b)) v.
  Proof.
    intros disc supp [vs f|vs|i] l P0 (Wb & P) Sb H; cbn [flatten_basic] in H; [contradiction| |].
    - inv_bind H. unfold passert in E. destruct disc; [|discriminate]. destruct (partition_runs vs P) as (A & B). apply mapM_Forall2 in H.
      assert (Bl : forall b, In b (partition_finite_real_contiguous vs) -> forall x, In x b -> In x vs).
      { intros b Hb x Hx. apply (sort_In eleb). rewrite <- B. apply in_concat. eauto. }
      assert (Bi : forall b i, In b (partition_finite_real_contiguous vs) -> (match b with [] => Raise ValueError | y :: _ => Range y (last b y) end) = Ok i ->
         flat_ok true supp i /\ forall k, ind (in_iv i) (FNum (IZR k)) = sumR (map (fun x => ind (fun v => exists r, eR x = Fin r /\ v = FNum r) (FNum (IZR k))) b)).
      { intros b i Hb Hi. rewrite Forall_forall in A. destruct (A b Hb) as (Ne & r1 & Hr). destruct b as [|y tl]; [tauto|].
        destruct (range_block r1 y tl i Hr Hi) as (W & I1 & I2 & Ia & Iy & _). split; [|intro k; now apply (range_ind r1)]. split; auto. intros _. destruct (P0 eq_refl) as [P0'|P0']; [left|now right].
        assert (Ry : forall x : enum, integer_end x -> rounds x) by (intros [|c|]; simpl; auto). repeat split; auto.
        assert (K : bmem (RNum (eR y)) (BInt supp)) by (apply Sb; simpl; exists y; split; auto; apply (Bl _ Hb); now left).
        rewrite Ia. rewrite Iy in K. destruct K as (K & _). clear P0. rename P0' into P0. unfold ele, elt in *. destruct (eR (iv_a supp)) as [|c|]; simpl in *.
        - destruct P0 as [[]|P0]; discriminate.
        - assert (0 <= c) by (destruct P0 as [P0|P0]; [lra|injection P0; lra]). assert (c <= r1) by (destruct (iv_lo supp); [lra|destruct K as [K|K]; [lra|injection K; lra]]).
          destruct (Req_dec 0 r1); [right; congruence|left; lra].
        - destruct (iv_lo supp); intuition discriminate. }
      split.
      + apply Forall_forall. intros i Hi. destruct (Forall2_in_r _ _ _ _ _ _ H Hi) as (b & Hb & Eb). now apply (Bi b).
      + intros v Iv. destruct (Iv eq_refl) as (k & ->). rewrite (finite_ind vs) by (auto; apply Wb).
        rewrite (sumR_perm_map _ _ _ _ (sort_perm eleb vs)). rewrite <- B, sumR_concat_map. apply Forall2_sumR.
        clear -H Bi. induction H as [|b i bs is Hi F IH]; constructor; [|apply IH; intros; apply Bi; auto; now right]. apply Bi; auto. now left.
    - injection H as <-. split.
      + constructor; [|constructor]. split; auto. intros Ed. destruct (P0 Ed) as [P1|P1]; [|now right]. destruct (P Ed) as [(R1 & R2)|P2]; [left|now right]. repeat split; auto. apply (sub_nonneg supp); auto.
      + intros v _. simpl. rewrite Rplus_0_r. reflexivity.
  Qed.
End Flat.
