(** Correctness of the set operations of src/sets.py. *)
From Coq Require Import List Bool String Permutation ZArith Reals Lra Lia.
From Verif Require Import Base Num Sets SetSpec SetIv.
Import ListNotations.
Local Open Scope R_scope.

(** ** Lists of pairwise related elements *)
Section Pairs.
  Context {A : Type} (R : A -> A -> Prop) (sym : forall x y, R x y -> R y x).
  Lemma FOP_cons : forall x l, ForallOrdPairs R (x :: l) <-> Forall (R x) l /\ ForallOrdPairs R l.
  Proof. split; [intros H; inversion H; auto|intros []; now constructor]. Qed.
  Lemma FOP_perm : forall l l', Permutation l l' -> ForallOrdPairs R l -> ForallOrdPairs R l'.
  Proof.
    induction 1; intros F; auto.
    - apply FOP_cons in F. destruct F as [F1 F2]. apply FOP_cons. split; auto.
      eapply Permutation_Forall; eauto.
    - apply FOP_cons in F. destruct F as [F1 F2]. apply FOP_cons in F2. destruct F2 as [F2 F3].
      inversion F1; subst. repeat (apply FOP_cons; split; auto).
  Qed.
  Lemma FOP_app : forall l l', ForallOrdPairs R (l ++ l') <->
    ForallOrdPairs R l /\ ForallOrdPairs R l' /\ (forall x y, In x l -> In y l' -> R x y).
  Proof.
    induction l as [|x l IH]; simpl; intros l'.
    - split; [intros H; repeat split; auto; [constructor|tauto]|tauto].
    - rewrite !FOP_cons, IH, Forall_app, !Forall_forall. split.
      + intros ((H1 & H2) & H3 & H4 & H5). repeat split; auto.
        intros y z [<-|Hy] Hz; auto.
      + intros ((H1 & H2) & H3 & H4). repeat split; auto.
  Qed.
  Lemma FOP_rev : forall l, ForallOrdPairs R l -> ForallOrdPairs R (rev l).
  Proof. intros l. apply FOP_perm, Permutation_rev. Qed.
End Pairs.

Section Proofs.
  Context {N : numsys}.
  Notation enum := (ext (num N)).
  Implicit Types (x y : enum) (i j : interval N).

  Lemma disjoint_b_sym : forall b c : bset N, disjoint_b b c -> disjoint_b c b.
  Proof. unfold disjoint_b; eauto. Qed.

  (** every well-formed basic set has a member *)
  Lemma iv_inhabited : forall i, wf_iv i -> exists r : R, iv_mem (Fin r) i.
  Proof.
    intros [a b lo ro] (H & Ha & Hb). simpl in *.
    assert (E : exists r, elt (eR a) (Fin r) /\ elt (Fin r) (eR b)).
    { destruct a as [|a|], b as [|b|]; simpl in *; try tauto.
      - exists (toR b - 1). lra.
      - exists 0. auto.
      - exists ((toR a + toR b) / 2). lra.
      - exists (toR a + 1). lra. }
    destruct E as (r & E1 & E2). exists r. unfold iv_mem; simpl.
    split; [destruct lo|destruct ro]; auto; now left.
  Qed.

  Lemma string_fresh : forall vs : list string, exists s, ~ In s vs.
  Proof.
    intros vs.
    assert (H : exists n, forall s, In s vs -> (String.length s < n)%nat).
    { induction vs as [|w vs (n & IH)]; [exists O; simpl; tauto|].
      exists (S (String.length w) + n)%nat. intros s [<-|H]; [lia|]. apply IH in H. lia. }
    destruct H as (n & H).
    assert (G : exists s, String.length s = n).
    { clear H. induction n as [|n (s & IH)]; [now exists EmptyString|].
      exists (String Ascii.zero s). simpl. congruence. }
    destruct G as (s & G). exists s. intros H'. apply H in H'. lia.
  Qed.

  Lemma b_inhabited : forall b : bset N, wf_b b -> exists v, bmem v b.
  Proof.
    intros [vs f|vs|i]; simpl.
    - intros (_ & H). destruct (truthy f) eqn:E.
      + destruct (string_fresh vs) as (s & Hs). now exists (RStr s).
      + destruct H as [H|H]; [|discriminate]. destruct vs as [|s vs]; [tauto|].
        exists (RStr s). now left.
    - intros (_ & H). destruct vs as [|x vs]; [tauto|]. exists (RNum (eR x)). exists x. simpl; auto.
    - intros H. destruct (iv_inhabited i H) as (r & Hr). exists (RNum (Fin r)). exact Hr.
  Qed.

  (** ** Equality implies equal members *)
  Lemma iv_eqb_mem : forall i j, iv_eqb i j = true -> forall v, iv_mem v i <-> iv_mem v j.
  Proof.
    intros i j H v. rewrite iv_eqb_R in H. rewrite !iv_mem_pm.
    rewrite !andb_true_iff in H. destruct H as (((H1 & H2) & H3) & H4).
    apply eqb_prop in H3. apply eqb_prop in H4. rewrite H3, H4.
    unfold Reqb in *. destruct (Req_EM_T _ _) as [E1|]; [|discriminate].
    destruct (Req_EM_T (pos (iv_b i)) _) as [E2|]; [|discriminate].
    rewrite E1, E2. reflexivity.
  Qed.

  Lemma eeqb_refl : forall x, eeqb x x = true.
  Proof. intros; now apply eeqb_pos. Qed.
  Lemma eeqb_trans : forall x y z : enum, eeqb x y = true -> eeqb y z = true -> eeqb x z = true.
  Proof. intros x y z. rewrite !eeqb_pos. congruence. Qed.

  Lemma inb_eeqb : forall x vs, inb eeqb x vs = true <-> In (eR x) (map eR vs).
  Proof.
    intros. rewrite inb_true, in_map_iff. split; intros (y & H1 & H2); exists y.
    - apply eeqb_eR in H2. auto.
    - split; auto. apply eeqb_eR. auto.
  Qed.
  Lemma inb_string : forall s vs, inb String.eqb s vs = true <-> In s vs.
  Proof.
    intros. rewrite inb_true. split.
    - intros (y & H & E). apply String.eqb_eq in E. now subst.
    - intros H. exists s. split; auto. apply String.eqb_refl.
  Qed.
  Lemma bmem_real : forall v (vs : list enum), bmem (N:=N) (RNum v) (BReal vs) <-> In v (map eR vs).
  Proof. intros. simpl. rewrite in_map_iff. split; intros (y & H1 & H2); eauto. Qed.

  Lemma dedup_string_In : forall vs s, In s (dedup String.eqb vs) <-> In s vs.
  Proof.
    intros. split; [apply dedup_In|].
    induction vs as [|w vs IH]; simpl; [auto|]. intros [<-|H].
    - destruct (inb String.eqb w vs) eqn:E; [|now left]. apply inb_string in E. auto.
    - destruct (inb String.eqb w vs); [|right]; auto.
  Qed.
  Lemma dedup_string_NoDup : forall vs, NoDup (dedup String.eqb vs).
  Proof.
    induction vs as [|w vs IH]; simpl; [constructor|].
    destruct (inb String.eqb w vs) eqn:E; auto. constructor; auto.
    rewrite dedup_string_In, <- inb_string. congruence.
  Qed.
  Lemma dedup_string_id : forall vs, NoDup vs -> dedup String.eqb vs = vs.
  Proof.
    induction 1 as [|w vs H _ IH]; simpl; auto.
    destruct (inb String.eqb w vs) eqn:E; [apply inb_string in E; tauto|congruence].
  Qed.
  Lemma dedup_num_In : forall (vs : list enum) v, In v (map eR (dedup eeqb vs)) <-> In v (map eR vs).
  Proof.
    induction vs as [|w vs IH]; simpl; [tauto|]. intros v.
    destruct (inb eeqb w vs) eqn:E.
    - rewrite IH. apply inb_eeqb in E. split; [auto|]. intros [<-|]; auto.
    - simpl. rewrite IH. reflexivity.
  Qed.
  Lemma dedup_num_NoDup : forall (vs : list enum), NoDup (map eR (dedup eeqb vs)).
  Proof.
    induction vs as [|w vs IH]; simpl; [constructor|].
    destruct (inb eeqb w vs) eqn:E; auto. simpl. constructor; auto.
    rewrite dedup_num_In, <- inb_eeqb. congruence.
  Qed.
  Lemma dedup_num_id : forall (vs : list enum), NoDup (map eR vs) -> dedup eeqb vs = vs.
  Proof.
    induction vs as [|w vs IH]; simpl; intros H; auto. inversion H; subst.
    destruct (inb eeqb w vs) eqn:E; [apply inb_eeqb in E; tauto|]. f_equal; auto.
  Qed.

  Lemma set_eqb_string : forall vs ws, set_eqb String.eqb vs ws = true -> forall s, In s vs <-> In s ws.
  Proof.
    intros vs ws H s. unfold set_eqb in H. rewrite andb_true_iff, !forallb_forall in H.
    destruct H as (H1 & H2). split; intros H; [apply H1 in H|apply H2 in H]; now apply inb_string.
  Qed.
  Lemma set_eqb_num : forall (vs ws : list enum), set_eqb eeqb vs ws = true ->
    forall v, In v (map eR vs) <-> In v (map (eR (N:=N)) ws).
  Proof.
    intros vs ws H v. unfold set_eqb in H. rewrite andb_true_iff, !forallb_forall in H.
    destruct H as (H1 & H2). split; intros H; apply in_map_iff in H; destruct H as (y & <- & H);
      [apply H1 in H|apply H2 in H]; now apply inb_eeqb.
  Qed.

  Lemma beqb_mem : forall b c : bset N, beqb b c = true -> forall v, bmem v b <-> bmem v c.
  Proof.
    intros [vs f|vs|i] [ws g|ws|j]; simpl; try discriminate.
    - rewrite andb_true_iff. intros (H1 & H2) [v|s]; [tauto|].
      apply eqb_prop in H1. rewrite H1. generalize (set_eqb_string _ _ H2 s). destruct (truthy g); tauto.
    - intros H [v|s]; [|tauto].       fold (bmem (N:=N) (RNum v) (BReal vs)). fold (bmem (N:=N) (RNum v) (BReal ws)).
      rewrite !bmem_real. now apply set_eqb_num.
    - intros H [v|s]; [|tauto]. now apply iv_eqb_mem.
  Qed.

  (** ** Unions *)

  Lemma dedup_id : forall (l : list (bset N)), Forall wf_b l -> ForallOrdPairs disjoint_b l ->
    dedup beqb l = l.
  Proof.
    induction l as [|b l IH]; simpl; intros W D; auto.
    apply FOP_cons in D. destruct D as (D1 & D2). inversion W; subst.
    destruct (inb beqb b l) eqn:E; [|f_equal; auto].
    apply inb_true in E. destruct E as (c & Hc & E).
    rewrite Forall_forall in D1. specialize (D1 _ Hc).
    destruct (b_inhabited b) as (v & Hv); auto.
    exfalso. apply (D1 v Hv). now apply (beqb_mem b c E).
  Qed.

  Lemma dedup_iv_id : forall l : list (interval N), Forall wf_iv l ->
    ForallOrdPairs (fun i j => disjoint_b (BInt i) (BInt j)) l -> dedup iv_eqb l = l.
  Proof.
    induction l as [|i l IH]; simpl; intros W D; auto.
    apply FOP_cons in D. destruct D as (D1 & D2). inversion W; subst.
    destruct (inb iv_eqb i l) eqn:E; [|f_equal; auto].
    apply inb_true in E. destruct E as (c & Hc & E).
    rewrite Forall_forall in D1. specialize (D1 _ Hc).
    destruct (iv_inhabited i) as (v & Hv); auto.
    exfalso. apply (D1 (RNum (Fin v)) Hv). now apply (iv_eqb_mem i c E).
  Qed.

  Definition ivs (u : list (bset N)) := flat_map get_iv u.

  Lemma ivs_In : forall u i, In i (ivs u) <-> In (BInt i) u.
  Proof.
    intros. unfold ivs. rewrite in_flat_map. split.
    - intros (b & H & E). destruct b; simpl in E; try tauto. destruct E as [->|[]]. auto.
    - intros H. exists (BInt i). simpl; auto.
  Qed.

  Definition pieces_ok (u : list (bset N)) : Prop :=
    Forall wf_b u /\ (List.length (filter is_nom u) <= 1)%nat /\
    (List.length (filter is_real u) <= 1)%nat /\ ForallOrdPairs disjoint_b u.

  Lemma pieces_ok_ivs : forall u, pieces_ok u ->
    Forall wf_iv (ivs u) /\ ForallOrdPairs (fun i j => disjoint_b (BInt i) (BInt j)) (ivs u).
  Proof.
    intros u (W & _ & _ & D). clear -W D. induction u as [|b u IH]; simpl.
    - split; constructor.
    - apply FOP_cons in D. destruct D as (D1 & D2). inversion W; subst.
      destruct (IH H2 D2) as (I1 & I2).
      destruct b; simpl; auto. split; [constructor; auto|].
      apply FOP_cons. split; auto. apply Forall_forall. intros j Hj.
      apply ivs_In in Hj. rewrite Forall_forall in D1. now apply D1.
  Qed.

  Context (io : iterorder N).

  Lemma u_intervals_perm : forall u, pieces_ok u -> Permutation (ivs u) (u_intervals io u).
  Proof.
    intros u H. unfold u_intervals. apply pieces_ok_ivs in H. destruct H as (H1 & H2).
    fold (ivs u). rewrite dedup_iv_id by auto. apply it_iv_perm.
  Qed.

  Lemma filter_le1 : forall (p : bset N -> bool) u, (List.length (filter p u) <= 1)%nat ->
    opt_list (match find p u with Some b => PB b | None => PEmpty end) = filter p u.
  Proof.
    induction u as [|b u IH]; simpl; intros H; auto.
    destruct (p b) eqn:E; simpl in *; auto.
    destruct (filter p u); simpl in *; [reflexivity|lia].
  Qed.

  Lemma partition_perm : forall u : list (bset N),
    Permutation u (filter is_nom u ++ filter is_real u ++ map BInt (ivs u)).
  Proof.
    induction u as [|b u IH]; simpl; auto. destruct b; simpl.
    - now constructor.
    - now apply Permutation_cons_app.
    - rewrite app_assoc. apply Permutation_cons_app. now rewrite <- app_assoc.
  Qed.

  Lemma u_values_perm : forall u, pieces_ok u -> Permutation u (u_values io u).
  Proof.
    intros u H. unfold u_values. etransitivity; [|apply it_bs_perm].
    etransitivity; [apply partition_perm|].
    unfold u_nominals, u_atoms. rewrite !filter_le1 by apply H.
    apply Permutation_app_head, Permutation_app_head.
    apply Permutation_map. now apply u_intervals_perm.
  Qed.

  Lemma wf_union_iff : forall u, wf (PUnion u) <-> pieces_ok u /\ (2 <= List.length u)%nat.
  Proof. intros. simpl. unfold pieces_ok. tauto. Qed.

  Lemma u_values_mem : forall u v, pieces_ok u ->
    ((exists b, In b (u_values io u) /\ bmem v b) <-> exists b, In b u /\ bmem v b).
  Proof.
    intros u v H. apply u_values_perm in H.
    split; intros (b & Hb & Hv); exists b; split; auto;
      [eapply Permutation_in; [symmetry; exact H|]|eapply Permutation_in; [exact H|]]; auto.
  Qed.

  (** the constructor accepts disjoint pieces *)
  Lemma Union_ok : forall (values : list (pset N)) (u : list (bset N)),
    flat_map opt_list values = u -> Forall not_union values ->
    pieces_ok u -> (2 <= List.length u)%nat ->
    Union_ io values = Ok (PUnion u).
  Proof.
    intros values u E NU H L. unfold Union_. rewrite E.
    assert (F : forallb (fun s => match s with PUnion _ => false | _ => true end) values = true).
    { apply forallb_forall. intros s Hs. rewrite Forall_forall in NU. specialize (NU s Hs).
      destruct s; auto. }
    rewrite F. simpl.
    destruct u as [|b u0] eqn:Eu; [simpl in L; lia|]. rewrite <- Eu in *. 
    assert (F1 : negb (is_nil u) = true) by (subst u; reflexivity). rewrite F1. simpl.
    pose proof H as (W & C1 & C2 & D).
    apply Nat.leb_le in C1. apply Nat.leb_le in C2. rewrite C1, C2. simpl.
    assert (P : Permutation u (u_values io u)) by (apply u_values_perm; assumption).
    rewrite dedup_id.
    - rewrite <- (Permutation_length P). destruct (List.length u) as [|[|n]]; [lia|lia|reflexivity].
    - eapply Permutation_Forall; [exact P|auto].
    - eapply FOP_perm; [apply disjoint_b_sym|exact P|auto].
  Qed.

  Lemma Union_inv : forall (values : list (pset N)) r, Union_ io values = Ok r ->
    r = PUnion (flat_map opt_list values) /\
    (List.length (filter is_nom (flat_map opt_list values)) <= 1)%nat /\
    (List.length (filter is_real (flat_map opt_list values)) <= 1)%nat.
  Proof.
    intros values r H. unfold Union_ in H.
    inv_bind H. inv_bind H. inv_bind H. inv_bind H. inv_bind H. injection H as <-.
    apply passert_Ok in E1, E2. apply Nat.leb_le in E1, E2. auto.
  Qed.
End Proofs.
