(** Union, intersection and complement of arbitrary sets. *)
From Coq Require Import List Bool String Permutation ZArith Reals Lra Lia.
From Verif Require Import Base Num Sets SetSpec SetIv SetProofs SetIvOr SetOr.
Import ListNotations.
Local Open Scope R_scope.

Section Proofs.
  Context {N : numsys} (io : iterorder N).
  Notation enum := (ext (num N)).
  Implicit Types (i j : interval N) (b c : bset N) (s t r : pset N) (u w : list (bset N)).

  Lemma nom_contains_ok : forall str vs f, nom_contains str vs f = true <->
    bmem (N:=N) (RStr str) (BNom vs f).
  Proof.
    intros. unfold nom_contains. simpl. destruct (truthy f).
    - rewrite negb_true_iff, <- not_true_iff_false, inb_string. reflexivity.
    - apply inb_string.
  Qed.
  Lemma nom_contains_no : forall str vs f, negb (nom_contains str vs f) = true <->
    ~ bmem (N:=N) (RStr str) (BNom vs f).
  Proof. intros. rewrite negb_true_iff, <- not_true_iff_false, nom_contains_ok. reflexivity. Qed.
  Lemma bmem_nom_dec : forall str vs f, bmem (N:=N) (RStr str) (BNom vs f) \/
    ~ bmem (N:=N) (RStr str) (BNom vs f).
  Proof.
    intros. rewrite <- nom_contains_ok. destruct (nom_contains str vs f); auto.
  Qed.

  Lemma fnom_or_empty_ok : forall vs, wf (fnom_or_empty (N:=N) vs) /\
    (forall v, mem v (fnom_or_empty (N:=N) vs) <-> match v with RStr str => In str vs | _ => False end) /\
    match fnom_or_empty (N:=N) vs with PEmpty | PB (BNom _ _) => True | _ => False end.
  Proof.
    intros. unfold fnom_or_empty.
    pose proof (dedup_string_NoDup vs) as ND. pose proof (dedup_string_In vs) as I.
    destruct (dedup String.eqb vs) as [|x l] eqn:E; simpl.
    - ands; auto. intros [v|str]; [tauto|]. rewrite <- I. simpl. tauto.
    - ands; auto; [left; discriminate|]. intros [v|str]; [tauto|]. rewrite <- I. reflexivity.
  Qed.

  Lemma freal_or_empty_ok : forall vs, wf (freal_or_empty (N:=N) vs) /\
    (forall v, mem v (freal_or_empty (N:=N) vs) <-> match v with RNum x => In x (map eR vs) | _ => False end) /\
    match freal_or_empty (N:=N) vs with PEmpty | PB (BReal _) => True | _ => False end.
  Proof.
    intros. unfold freal_or_empty.
    pose proof (dedup_num_NoDup vs) as ND. pose proof (dedup_num_In vs) as I.
    destruct (dedup eeqb vs) as [|x l] eqn:E.
    - simpl. ands; auto. intros [v|str]; [|tauto]. rewrite <- I. simpl. tauto.
    - ands; auto; [split; auto; discriminate|]. intros [v|str]; [|simpl; tauto].
      cbn [mem]. rewrite bmem_real. apply I.
  Qed.

  (** ** Union *)
  Definition or_spec s t r : Prop :=
    wf r /\ (forall v, mem v r -> mem v s \/ mem v t) /\
    (forall v, finite_val v -> mem v s \/ mem v t -> mem v r) /\
    (real_set s -> real_set t -> real_set r) /\
    (r = PEmpty -> s = PEmpty /\ t = PEmpty).

  Lemma or_nom_ok : forall vs f ws g, wf_b (N:=N) (BNom vs f) -> wf_b (N:=N) (BNom ws g) ->
    exists vs' f', or_nom (N:=N) vs f ws g = Ok (PB (BNom vs' f')) /\ wf_b (N:=N) (BNom vs' f') /\
      (forall v, bmem (N:=N) v (BNom vs' f') <-> bmem (N:=N) v (BNom vs f) \/ bmem (N:=N) v (BNom ws g)).
  Proof.
    intros vs f ws g (ND & NE) (ND' & NE'). unfold or_nom, FiniteNominal.
    destruct (truthy f) eqn:Ef; [|destruct (truthy g) eqn:Eg].
    - rewrite orb_true_r. simpl. do 2 eexists. split; [reflexivity|]. split.
      + split; [apply dedup_string_NoDup|auto].
      + intros [v|str]; simpl; [tauto|]. rewrite Ef, dedup_string_In, filter_In, nom_contains_no.
        generalize (bmem_nom_dec str ws g). simpl. destruct (in_dec string_dec str vs); tauto.
    - rewrite orb_true_r. simpl. do 2 eexists. split; [reflexivity|]. split.
      + split; [apply dedup_string_NoDup|auto].
      + intros [v|str]; simpl; [tauto|]. rewrite Eg, dedup_string_In, filter_In, nom_contains_no.
        simpl. rewrite Ef. destruct (in_dec string_dec str vs), (in_dec string_dec str ws); tauto.
    - destruct NE as [NE|NE]; [|discriminate]. destruct vs as [|x vs]; [tauto|].
      change (is_nil ((x :: vs) ++ ws)) with false. cbn [negb orb passert bind].
      do 2 eexists. split; [reflexivity|]. split.
      + split; [apply dedup_string_NoDup|]. left.
        intros E. assert (H : In x (dedup String.eqb ((x :: vs) ++ ws))).
        { apply dedup_string_In. now left. }
        rewrite E in H. exact H.
      + intros [v|str]; [simpl; tauto|]. cbn [bmem truthy].
        rewrite dedup_string_In, in_app_iff. simpl. rewrite Ef, Eg. tauto.
  Qed.

  Lemma wf_pair : forall b c, wf_b b -> wf_b c -> is_nom b = true -> is_nom c = false ->
    pieces_ok [b; c] /\ pieces_ok [c; b].
  Proof.
    intros b c Wb Wc Nb Nc.
    assert (D : disjoint_b b c).
    { intros [v|str]; destruct b, c; simpl in *; try discriminate; tauto. }
    split; unfold pieces_ok; simpl; rewrite Nb, Nc; ands; simpl; auto;
      try (repeat (constructor; auto); fail);
      try (destruct b, c; simpl in *; try discriminate; simpl; lia).
    constructor; [|repeat constructor]. constructor; [|constructor]. now apply disjoint_b_sym.
  Qed.

  Lemma mem_pair : forall v b c, mem v (PUnion [b; c]) <-> bmem v b \/ bmem v c.
  Proof.
    intros. simpl. split.
    - intros (x & [<-|[<-|[]]] & H); auto.
    - intros [H|H]; eauto.
  Qed.

  Lemma Union_pair : forall b c, pieces_ok [b; c] -> Union_ io [PB b; PB c] = Ok (PUnion [b; c]).
  Proof.
    intros b c H. apply Union_ok; [reflexivity|repeat (constructor; simpl; auto)|assumption|simpl; lia].
  Qed.

  Lemma wf_of_pieces : forall u, pieces_ok u -> (2 <= List.length u)%nat -> wf (PUnion u).
  Proof. intros. now apply wf_union_iff. Qed.

  Lemma or_bb_ok : forall b c, wf_b b -> wf_b c ->
    exists r, or_bb io b c = Ok r /\ or_spec (PB b) (PB c) r.
  Proof.
    intros b c Wb Wc.
    assert (Gen : forall b c, wf_b b -> wf_b c -> is_nom b = true -> is_nom c = false ->
      (exists r, Union_ io [PB b; PB c] = Ok r /\ or_spec (PB b) (PB c) r) /\
      (exists r, Union_ io [PB c; PB b] = Ok r /\ or_spec (PB c) (PB b) r) /\
      (exists r, Union_ io [PB b; PB c] = Ok r /\ or_spec (PB c) (PB b) r)).
    { clear. intros b c Wb Wc Nb Nc. destruct (wf_pair b c Wb Wc Nb Nc) as (P1 & P2).
      assert (NR : ~ real_b b) by (destruct b; simpl in *; try discriminate; auto).
      ands; [exists (PUnion [b; c])|exists (PUnion [c; b])|exists (PUnion [b; c])];
      rewrite Union_pair by auto; (split; [reflexivity|]);
      (split; [apply wf_of_pieces; simpl; auto; lia|]); ands;
        try (intros v; rewrite mem_pair; simpl; tauto);
        try (intros v; rewrite mem_pair; simpl; tauto);
        try (simpl; tauto); try discriminate. }
    destruct b as [vs f|vs|i], c as [ws g|ws|j]; unfold or_bb.
    - destruct (or_nom_ok vs f ws g Wb Wc) as (vs' & f' & -> & W & M).
      eexists. split; [reflexivity|]. unfold or_spec. ands; auto; try discriminate.
      + intros v. apply M.
      + intros v _. apply M.
    - now apply (Gen (BNom vs f) (BReal ws)).
    - now apply (Gen (BNom vs f) (BInt j)).
    - now apply (Gen (BNom ws g) (BReal vs)).
    - unfold FiniteReal. destruct Wb as (ND & NE), Wc as (ND' & NE').
      destruct vs as [|x vs]; [tauto|].
      change (is_nil ((x :: vs) ++ ws)) with false. cbn [negb passert bind].
      pose proof (dedup_num_In ((x :: vs) ++ ws)) as I.
      pose proof (dedup_num_NoDup ((x :: vs) ++ ws)) as D.
      set (l := dedup eeqb _) in *. exists (PB (BReal l)). split; [reflexivity|].
      assert (M : forall v, mem v (PB (BReal l)) <-> mem v (PB (BReal (x :: vs))) \/ mem v (PB (BReal ws))).
      { intros [v|str]; cbn [mem]; [|simpl; tauto]. rewrite !bmem_real, I, map_app, in_app_iff. reflexivity. }
      unfold or_spec. ands.
      + split; [exact D|]. intros E. specialize (I (eR x)). rewrite E in I. simpl in I. tauto.
      + intros v. apply M.
      + intros v _. apply M.
      + auto.
      + discriminate.
    - destruct Wb as (ND & NE).
      destruct (or_real_iv_ok io vs j ND Wc) as (ws & k & -> & Wk & NDw & Sub & Dw & Grow & Snd & Cpl).
      eexists. split; [reflexivity|].
      assert (M : forall v, mem v (match ws with [] => PB (BInt k) | _ => PUnion [BReal ws; BInt k] end) <->
        bmem v (BReal ws) \/ bmem v (BInt k)).
      { intros v. destruct ws; [|apply mem_pair]. destruct v; simpl; [|tauto].
        split; auto. intros [(y & [] & _)|]; auto. }
      unfold or_spec. setoid_rewrite M. ands.
      + destruct ws eqn:Ew; [exact Wk|]. rewrite <- Ew in *. apply wf_of_pieces; [|simpl; lia].
        apply pieces_real_iv; auto. congruence.
      + intros [v|str]; [|simpl; tauto]. cbn [mem]. rewrite !bmem_real. intros [H|H].
        * left. apply in_map_iff in H. destruct H as (y & <- & Hy). apply in_map. auto.
        * destruct (Snd v H); auto.
      + intros [v|str] Fv; [|simpl; tauto]. cbn [mem]. rewrite !bmem_real.
        destruct v as [|v|]; try (now destruct Fv). intros [H|H]; [|right; now apply Grow].
        destruct (Cpl v H); auto.
      + intros. destruct ws; simpl; repeat constructor.
      + destruct ws; discriminate.
    - now apply (Gen (BNom ws g) (BInt i)).
    - destruct Wc as (ND & NE).
      destruct (or_real_iv_ok io ws i ND Wb) as (vs & k & -> & Wk & NDw & Sub & Dw & Grow & Snd & Cpl).
      eexists. split; [reflexivity|].
      assert (M : forall v, mem v (match vs with [] => PB (BInt k) | _ => PUnion [BReal vs; BInt k] end) <->
        bmem v (BReal vs) \/ bmem v (BInt k)).
      { intros v. destruct vs; [|apply mem_pair]. destruct v; simpl; [|tauto].
        split; auto. intros [(y & [] & _)|]; auto. }
      unfold or_spec. setoid_rewrite M. ands.
      + destruct vs eqn:Ew; [exact Wk|]. rewrite <- Ew in *. apply wf_of_pieces; [|simpl; lia].
        apply pieces_real_iv; auto. congruence.
      + intros [v|str]; [|simpl; tauto]. cbn [mem]. rewrite !bmem_real. intros [H|H].
        * right. apply in_map_iff in H. destruct H as (y & <- & Hy). apply in_map. auto.
        * destruct (Snd v H); auto.
      + intros [v|str] Fv; [|simpl; tauto]. cbn [mem]. rewrite !bmem_real.
        destruct v as [|v|]; try (now destruct Fv). intros [H|H]; [right; now apply Grow|].
        destruct (Cpl v H); auto.
      + intros. destruct vs; simpl; repeat constructor.
      + destruct vs; discriminate.
    - destruct (iv_or_ok io i j Wb Wc) as [(-> & D & _)|(k & -> & Wk & _ & Mk)];
        (eexists; split; [reflexivity|]); unfold or_spec; ands.
      + apply wf_of_pieces; [now apply disjoint_pieces2|simpl; lia].
      + intros v. rewrite mem_pair. auto.
      + intros v _. rewrite mem_pair. auto.
      + intros. repeat constructor.
      + discriminate.
      + exact Wk.
      + intros [v|str]; simpl; [apply Mk|tauto].
      + intros [v|str] _; simpl; [apply Mk|tauto].
      + auto.
      + discriminate.
  Qed.

  Lemma find_nom : forall u, match find is_nom u with
    | Some b => In b u /\ is_nom b = true | None => Forall real_b u end.
  Proof.
    induction u as [|b u IH]; simpl; [constructor|]. destruct (is_nom b) eqn:E; [auto|].
    destruct (find is_nom u); [tauto|]. constructor; auto. destruct b; simpl in *; [discriminate|exact I..].
  Qed.

  (** the pieces of a union, by kind *)
  Lemma u_parts_mem : forall u, pieces_ok u -> forall v,
    (exists b, In b u /\ bmem v b) <->
    mem v (u_nominals u) \/ mem v (u_atoms u) \/ (exists i, In i (u_intervals io u) /\ bmem v (BInt i)).
  Proof.
    intros u P v. rewrite <- (u_values_mem io u v P). unfold u_values.
    set (l := opt_list _ ++ _). pose proof (it_bs_perm io l) as Q.
    assert (E : (exists b, In b (it_bs io l) /\ bmem v b) <-> (exists b, In b l /\ bmem v b)).
    { split; intros (b & Hb & Hv); exists b; split; auto;
      [eapply Permutation_in; [symmetry; exact Q|]|eapply Permutation_in; [exact Q|]]; auto. }
    rewrite E. unfold l. clear.
    assert (O : forall s v, not_union s -> ((exists b, In b (opt_list s) /\ bmem v b) <-> mem v s)).
    { intros [|b|w] v' NU; simpl in *; [| |tauto].
      - split; [intros (b & [] & _)|tauto].
      - split; [intros (c & [<-|[]] & H); auto|intros H; eauto]. }
    assert (A : forall l1 l2, (exists b, In b (l1 ++ l2) /\ bmem v b) <->
      (exists b, In b l1 /\ bmem v b) \/ (exists b, In b l2 /\ bmem v b)).
    { intros. split.
      - intros (b & Hb & Hv). apply in_app_iff in Hb. destruct Hb; eauto.
      - intros [(b & Hb & Hv)|(b & Hb & Hv)]; exists b; rewrite in_app_iff; auto. }
    rewrite A, A, O, O.
    - assert (B : (exists b, In b (map BInt (u_intervals io u)) /\ bmem v b) <->
         (exists i, In i (u_intervals io u) /\ bmem v (BInt i))).
      { split.
        - intros (b & Hb & Hv). apply in_map_iff in Hb. destruct Hb as (i & <- & Hi). eauto.
        - intros (i & Hi & Hv). exists (BInt i). split; auto. now apply in_map. }
      rewrite B. reflexivity.
    - unfold u_atoms. destruct (find _ _); exact I.
    - unfold u_nominals. destruct (find _ _); exact I.
  Qed.

  Lemma u_nominals_cases : forall u, pieces_ok u ->
    (u_nominals u = PEmpty /\ Forall real_b u) \/
    (exists vs f, u_nominals u = PB (BNom vs f) /\ wf_b (N:=N) (BNom vs f) /\ In (BNom vs f) u).
  Proof.
    intros u P. unfold u_nominals. pose proof (find_nom u) as F.
    destruct (find is_nom u) as [b|]; [|now left]. right. destruct F as (F1 & F2).
    destruct b as [vs f| |]; try discriminate. exists vs, f. ands; auto.
    destruct P as (W & _). rewrite Forall_forall in W. now apply W.
  Qed.
  Lemma u_atoms_cases : forall u, pieces_ok u ->
    u_atoms u = PEmpty \/ (exists vs, u_atoms u = PB (BReal vs) /\ wf_b (BReal vs)).
  Proof.
    intros u P. unfold u_atoms. destruct (find is_real u) as [b|] eqn:E; [|now left]. right.
    apply find_some in E. destruct E as (E1 & E2). destruct b as [|vs|]; try discriminate.
    exists vs. split; auto. destruct P as (W & _). rewrite Forall_forall in W. now apply (W _ E1).
  Qed.
  Lemma u_intervals_wf : forall u, pieces_ok u -> Forall wf_iv (u_intervals io u) /\
    ForallOrdPairs (fun i j => disjoint_b (BInt i) (BInt j)) (u_intervals io u).
  Proof.
    intros u P. pose proof (u_intervals_perm io u P) as Q. apply pieces_ok_ivs in P.
    destruct P as (P1 & P2). split; [eapply Permutation_Forall; eauto|].
    eapply FOP_perm; [|exact Q|exact P2]. intros ? ?; apply disjoint_b_sym.
  Qed.

  (** a nominal set together with disjoint pieces of numbers *)
  Lemma nom_cons_pieces : forall vs f (blocks : list (bset N)), wf_b (N:=N) (BNom vs f) -> pieces_ok blocks ->
    Forall real_b blocks -> pieces_ok (BNom vs f :: blocks).
  Proof.
    intros vs f blocks W (W1 & C1 & C2 & D) R. unfold pieces_ok. ands.
    - now constructor.
    - simpl. assert (E : filter is_nom blocks = []).
      { clear -R. induction R as [|b l H _ IH]; simpl; auto. destruct b; simpl in *; tauto. }
      rewrite E. simpl. lia.
    - exact C2.
    - apply FOP_cons. split; auto. eapply Forall_impl; [|exact R].
      intros b Hb [v|str]; destruct b; simpl in *; tauto.
  Qed.

  Lemma flat_map_PB : forall l : list (bset N), flat_map opt_list (map PB l) = l.
  Proof. induction l; simpl; congruence. Qed.

  Lemma or_ub_finish_ok : forall u blocks, pieces_ok u -> pieces_ok blocks -> blocks <> [] ->
    Forall real_b blocks ->
    exists r, or_ub_finish io u blocks = Ok r /\ wf r /\ r <> PEmpty /\
      (Forall real_b u -> real_set r) /\
      (forall v, mem v r <-> mem v (u_nominals u) \/ exists b, In b blocks /\ bmem v b).
  Proof.
    intros u blocks Pu Pb NE R. unfold or_ub_finish.
    destruct blocks as [|b0 bl] eqn:E; [tauto|]. rewrite <- E in *.
    replace (negb (is_nil blocks)) with true by (subst; reflexivity). cbn [passert bind].
    destruct (u_nominals_cases u Pu) as [(En & Ru)|(vs & f & En & Wn & In1)]; rewrite En.
    - destruct bl as [|b1 bl].
      + subst blocks. exists (PB b0). inversion R; subst. ands; auto; try discriminate.
        * destruct Pb as (W & _). inversion W; auto.
        * intros v. simpl. split; [eauto|]. intros [[]|(b & [<-|[]] & H)]; auto.
      + replace (match blocks with [b] => Ok (PB b) | _ => Union_ io (PEmpty :: map PB blocks) end)
          with (Union_ io (PEmpty :: map PB blocks)) by (subst; reflexivity).
        exists (PUnion blocks). rewrite (Union_ok io _ blocks); auto.
        * ands; auto; try discriminate.
          -- apply wf_of_pieces; auto. subst; simpl; lia.
          -- intros v. simpl. split; [intros H; right; exact H|intros [[]|H]; exact H].
        * simpl. apply flat_map_PB.
        * constructor; [exact I|]. apply Forall_forall. intros s Hs. apply in_map_iff in Hs.
          destruct Hs as (b & <- & _). exact I.
        * subst; simpl; lia.
    - assert (EU : Union_ io (PB (BNom vs f) :: map PB blocks) = Ok (PUnion (BNom vs f :: blocks))).
      { apply Union_ok.
        - simpl. f_equal. apply flat_map_PB.
        - constructor; [exact I|]. apply Forall_forall. intros s Hs. apply in_map_iff in Hs.
          destruct Hs as (b & <- & _). exact I.
        - now apply nom_cons_pieces.
        - subst; simpl; lia. }
      exists (PUnion (BNom vs f :: blocks)). split.
      { rewrite <- EU. subst blocks. destruct bl; reflexivity. }
      ands; auto; try discriminate.
      + apply wf_of_pieces; [now apply nom_cons_pieces|subst; simpl; lia].
      + intros Ru. rewrite Forall_forall in Ru. now apply Ru in In1.
      + intros v. cbn [mem]. split.
        * intros (b & [<-|Hb] & Hv); eauto.
        * intros [H|(b & Hb & Hv)]; [exists (BNom vs f)|exists b]; simpl; auto.
  Qed.

  Lemma as_finite_ok : forall s, match s with PEmpty => True | PB (BReal vs) => wf_b (BReal vs) | _ => False end ->
    fin_ok (as_finite s) /\ (forall v, In v (map eR (fin_vals (as_finite s))) <-> mem (RNum v) s).
  Proof.
    intros [|[| vs|]|]; simpl; try tauto. intros (H1 & H2). split; auto.
    intros v. rewrite in_map_iff. split; intros (y & A & B); eauto.
  Qed.

  Lemma some_mem_iff : forall v l, some_mem (N:=N) v l <-> exists i, In i l /\ bmem (RNum v) (BInt i).
  Proof. reflexivity. Qed.

  Lemma u_real_part : forall u, pieces_ok u -> (2 <= List.length u)%nat ->
    ~ (u_atoms u = PEmpty /\ u_intervals io u = []).
  Proof.
    intros u P L (E1 & E2). pose proof P as (_ & C1 & C2 & _).
    pose proof (partition_perm u) as Q. apply Permutation_length in Q.
    rewrite !app_length, map_length in Q.
    pose proof (Permutation_length (u_intervals_perm io u P)) as Q2. rewrite E2 in Q2. simpl in Q2.
    rewrite Q2 in Q. pose proof (filter_le1 is_real u C2) as F. unfold u_atoms in E1.
    destruct (find is_real u); [discriminate|]. simpl in F. rewrite <- F in Q. simpl in Q. lia.
  Qed.

  (** The interval parts of two unions are only ever merged when there is at least
      one interval; a union has an interval unless it is nominal + finite. *)
  Lemma or_ub_ok : forall u c, wf (PUnion u) -> wf_b c ->
    u_intervals io u <> [] \/ is_real c = false ->
    exists r, or_ub io u c = Ok r /\ or_spec (PUnion u) (PB c) r.
  Proof.
    intros u c Wu Wc HI. apply wf_union_iff in Wu. destruct Wu as (P & L).
    pose proof (u_parts_mem u P) as M. pose proof (u_intervals_wf u P) as (WI & DI).
    destruct c as [vs f|vs|i].
    - unfold or_ub.
      assert (G : exists vs' f', or_pb io (u_nominals u) (BNom vs f) = Ok (PB (BNom vs' f')) /\
        wf_b (N:=N) (BNom vs' f') /\
        forall v, bmem (N:=N) v (BNom vs' f') <-> mem v (u_nominals u) \/ bmem (N:=N) v (BNom vs f)).
      { destruct (u_nominals_cases u P) as [(-> & _)|(ws & g & -> & Wn & _)]; simpl or_pb.
        - exists vs, f. ands; auto. simpl. tauto.
        - now apply or_nom_ok. }
      destruct G as (vs' & f' & -> & W' & M'). cbn [bind].
      assert (Pr : pieces_ok (opt_list (u_atoms u) ++ map BInt (u_intervals io u)) /\
                   Forall real_b (opt_list (u_atoms u) ++ map BInt (u_intervals io u))).
      { assert (Q : Permutation u (filter is_nom u ++ (opt_list (u_atoms u) ++ map BInt (u_intervals io u)))).
        { pose proof P as (_ & _ & C2 & _).
          etransitivity; [apply partition_perm|]. apply Permutation_app_head.
          unfold u_atoms. rewrite filter_le1 by exact C2. apply Permutation_app_head.
          apply Permutation_map. now apply u_intervals_perm. }
        assert (R : Forall real_b (opt_list (u_atoms u) ++ map BInt (u_intervals io u))).
        { apply Forall_app. split.
          - destruct (u_atoms_cases u P) as [->|(ws & -> & _)]; repeat constructor.
          - apply Forall_forall. intros b Hb. apply in_map_iff in Hb. now destruct Hb as (k & <- & _). }
        split; auto. destruct P as (W & C1 & C2 & D). unfold pieces_ok.
        pose proof (Permutation_Forall Q W) as W2. apply Forall_app in W2.
        pose proof (FOP_perm _ disjoint_b_sym _ _ Q D) as D2. rewrite FOP_app in D2 by apply disjoint_b_sym.
        assert (FR : List.length (filter is_real u) =
          List.length (filter is_real (filter is_nom u ++ opt_list (u_atoms u) ++ map BInt (u_intervals io u)))).
        { apply Permutation_length. clear -Q. induction Q; simpl; auto.
          - destruct (is_real x); auto.
          - destruct (is_real x), (is_real y); auto. apply perm_swap.
          - etransitivity; eauto. }
        rewrite filter_app, app_length in FR. ands; try tauto; [|lia].
        clear -R. set (l := _ ++ _) in *. clearbody l.
        induction R as [|b l H _ IH]; simpl; auto. destruct b; simpl in *; tauto. }
      destruct Pr as (Pr & Rr).
      exists (PUnion (BNom vs' f' :: opt_list (u_atoms u) ++ map BInt (u_intervals io u))).
      split; [apply Union_ok|].
      + simpl. do 2 f_equal. clear. induction (u_intervals io u); simpl; congruence.
      + constructor; [exact I|]. constructor.
        * destruct (u_atoms_cases u P) as [->|(ws & -> & _)]; exact I.
        * apply Forall_forall. intros s Hs. apply in_map_iff in Hs. now destruct Hs as (k & <- & _).
      + now apply nom_cons_pieces.
      + pose proof (u_real_part u P L) as NE. simpl.
        destruct (u_atoms_cases u P) as [E|(ws & E & _)]; rewrite E in *; simpl; [|lia].
        destruct (u_intervals io u); simpl; [tauto|lia].
      + assert (M2 : forall v, mem v (PUnion (BNom vs' f' :: opt_list (u_atoms u) ++ map BInt (u_intervals io u))) <->
          mem v (PUnion u) \/ mem (N:=N) v (PB (BNom vs f))).
        { intros v. cbn [mem]. rewrite M. split.
          - intros (b & [<-|Hb] & Hv).
            + apply M' in Hv. tauto.
            + apply in_app_iff in Hb. destruct Hb as [Hb|Hb].
              * destruct (u_atoms u); simpl in Hb; try tauto. destruct Hb as [<-|[]]. simpl. tauto.
              * apply in_map_iff in Hb. destruct Hb as (k & <- & Hk). left. right. right. eauto.
          - intros [[H|[H|(k & Hk & Hv)]]|H].
            + exists (BNom vs' f'). split; [now left|]. apply M'. auto.
            + destruct (u_atoms_cases u P) as [E|(ws & E & _)]; rewrite E in *; [now destruct H|].
              exists (BReal ws). split; [simpl; auto|exact H].
            + exists (BInt k). split; auto. right. apply in_app_iff. right. now apply in_map.
            + exists (BNom vs' f'). split; [now left|]. apply M'. auto. }
        unfold or_spec. ands.
        * apply wf_of_pieces; [now apply nom_cons_pieces|].
          pose proof (u_real_part u P L) as NE. simpl.
          destruct (u_atoms_cases u P) as [E|(ws & E & _)]; rewrite E in *; simpl; [|lia].
          destruct (u_intervals io u); simpl; [tauto|lia].
        * intros v. apply M2.
        * intros v _. apply M2.
        * simpl. tauto.
        * discriminate.
    - destruct HI as [HI|HI]; [|discriminate]. unfold or_ub.
      assert (G : exists ws, or_pb io (u_atoms u) (BReal vs) = Ok (PB (BReal ws)) /\
        wf_b (BReal ws) /\
        forall v, bmem v (BReal ws) <-> mem v (u_atoms u) \/ bmem v (BReal vs)).
      { destruct (u_atoms_cases u P) as [->|(ws & -> & Wn)]; simpl or_pb.
        - exists vs. ands; auto. simpl. tauto.
        - unfold FiniteReal. destruct Wn as (ND & NE). destruct ws as [|x ws]; [tauto|].
          change (is_nil ((x :: ws) ++ vs)) with false. cbn [negb passert bind].
          eexists. split; [reflexivity|]. split.
          + split; [apply dedup_num_NoDup|]. intros E.
            pose proof (dedup_num_In ((x :: ws) ++ vs) (eR x)) as Q. rewrite E in Q. simpl in Q. tauto.
          + intros [v|str]; [|simpl; tauto]. cbn [mem].
            rewrite !bmem_real, dedup_num_In, map_app, in_app_iff. reflexivity. }
      destruct G as (ws & -> & W' & M'). cbn [bind].
      destruct (as_finite_ok (PB (BReal ws)) W') as (Fo & Fm). cbn [as_finite] in Fo.
      destruct (union_intervals_finite_ok io (u_intervals io u) (Some ws) HI WI Fo)
        as (blocks & E & Pb & Nb & Rb & Sb & Gb & Cb).
      cbn [as_finite]. rewrite E. cbn [bind].
      destruct (or_ub_finish_ok u blocks P Pb Nb Rb) as (r & Er & Wr & Nr & Rr & Mr).
      exists r. split; [exact Er|]. unfold or_spec. ands; auto; [| |tauto].
      + intros v Hv. cbn [mem]. rewrite M. apply Mr in Hv. destruct Hv as [Hv|Hv]; [tauto|].
        destruct v as [v|str].
        * apply Sb in Hv. destruct Hv as [Hv|Hv]; [left; right; right; exact Hv|].
          apply Fm in Hv. cbn [mem] in Hv. apply M' in Hv. tauto.
        * destruct Hv as (b & Hb & Hv). rewrite Forall_forall in Rb. apply Rb in Hb.
          destruct b; simpl in *; tauto.
      + intros v Fv. cbn [mem]. rewrite M. intros H. apply Mr.
        destruct v as [[|v|]|str]; try (now destruct Fv).
        * destruct H as [[H|[H|H]]|H]; auto; right.
          -- apply Cb. apply Fm. cbn [mem]. apply M'. auto.
          -- apply Cb. apply Fm. cbn [mem]. apply M'. auto.
        * destruct H as [[H|[H|H]]|H]; auto; exfalso.
          -- destruct (u_atoms_cases u P) as [E0|(ws0 & E0 & _)]; rewrite E0 in H; now destruct H.
          -- destruct H as (k & Hk & []).
          -- exact H.
    - unfold or_ub.
      assert (A : match u_atoms u with PEmpty => True | PB (BReal vs) => wf_b (BReal vs) | _ => False end).
      { destruct (u_atoms_cases u P) as [->|(ws & -> & Wn)]; auto. }
      destruct (as_finite_ok (u_atoms u) A) as (Fo & Fm).
      assert (WI' : Forall wf_iv (u_intervals io u ++ [i])) by (apply Forall_app; split; auto).
      assert (NI' : u_intervals io u ++ [i] <> []) by (destruct (u_intervals io u); discriminate).
      destruct (union_intervals_finite_ok io _ (as_finite (u_atoms u)) NI' WI' Fo)
        as (blocks & E & Pb & Nb & Rb & Sb & Gb & Cb).
      rewrite E. cbn [bind].
      destruct (or_ub_finish_ok u blocks P Pb Nb Rb) as (r & Er & Wr & Nr & Rr & Mr).
      exists r. split; [exact Er|]. unfold or_spec. ands; auto; [| |tauto].
      + intros v Hv. cbn [mem]. rewrite M. apply Mr in Hv. destruct Hv as [Hv|Hv]; [tauto|].
        destruct v as [v|str].
        * apply Sb in Hv. destruct Hv as [(k & Hk & Hv)|Hv].
          -- apply in_app_iff in Hk. destruct Hk as [Hk|[<-|[]]]; [|right; exact Hv].
             left; right; right. exists k. auto.
          -- apply Fm in Hv. tauto.
        * destruct Hv as (b & Hb & Hv). rewrite Forall_forall in Rb. apply Rb in Hb.
          destruct b; simpl in *; tauto.
      + intros v Fv. cbn [mem]. rewrite M. intros H. apply Mr.
        destruct v as [[|v|]|str]; try (now destruct Fv).
        * destruct H as [[H|[H|(k & Hk & Hv)]]|H]; auto; right.
          -- apply Cb. apply Fm. exact H.
          -- apply Gb. exists k. rewrite in_app_iff. auto.
          -- apply Gb. exists i. rewrite in_app_iff. simpl. auto.
        * destruct H as [[H|[H|H]]|H]; auto; exfalso.
          -- destruct (u_atoms_cases u P) as [E0|(ws0 & E0 & _)]; rewrite E0 in H; now destruct H.
          -- destruct H as (k & Hk & []).
          -- exact H.
  Qed.
End Proofs.
