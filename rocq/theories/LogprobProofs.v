(** The probability of an event under a sum-product expression. *)
From Coq Require Import List Bool String Reals Lra Lia ZArith QArith Qreals FunctionalExtensionality Permutation PeanoNat.
From Verif Require Import Base Num Sets SetSpec SetIv SetProofs SetOr SetOps SetAlg SetBuilt
  Poly Trans TransSpec TransFacts PolyProofs InvProofs InvMain EvProofs ArithProofs
  Dnf DnfSpec DnfProofs DnfUnion Logs Spe SpeSpec SpeFacts SpeRect LeafProofs LeafEvents LeafCond SpeCons LeafGiven MemoProofs.
Import ListNotations.
Local Open Scope R_scope.

(** ** Inclusion and exclusion *)
Section IncExc.
  Context {A : Type} {K : (A -> R) -> R} (L : law K) (ev : nat -> A -> Prop) (n : nat).
  Definition both (S : list nat) (w : A) : Prop := forall j, In j S -> ev j w.
  Definition none (js : list nat) (w : A) : R := prodR (map (fun j => 1 - ind (ev j) w) js).
  Definition later (i : nat) : list nat := seq (1 + i) (n - (1 + i)).
  Definition sign (S : list nat) : R := if Nat.odd (List.length S) then 1 else -1.
  Definition part (p : list nat * nat) : R := sign (fst p) * K (fun w => ind (both (fst p)) w * none (later (snd p)) w).

  Lemma none_bnd : forall js, bnd (none js).
  Proof.
    induction js as [|j js IH]; unfold none; simpl; [apply bnd_const|].
    apply (bnd_mult _ (fun w => 1 - ind (ev j) w) (none js)); auto with bnd.
  Qed.
  Lemma none_expand : forall k m w, (m + k = n)%nat -> none (seq m k) w = 1 - sumR (map (fun i => ind (ev i) w * none (later i) w) (seq m k)).
  Proof.
    induction k as [|k IH]; intros m w E; [cbn; ring|]. cbn [seq map]. unfold none at 1. cbn [map prodR fold_right]. fold (prodR (map (fun j => 1 - ind (ev j) w) (seq (Datatypes.S m) k))). fold (none (seq (Datatypes.S m) k) w).
    cbn [sumR fold_right]. fold (sumR (map (fun i => ind (ev i) w * none (later i) w) (seq (Datatypes.S m) k))).
    assert (E1 : later m = seq (Datatypes.S m) k) by (unfold later; f_equal; lia). rewrite E1. rewrite IH by lia. ring.
  Qed.
  Lemma both_snoc : forall S i w, ind (both (S ++ [i])) w = ind (both S) w * ind (ev i) w.
  Proof.
    intros S i w. rewrite <- ind_and. apply ind_eq. unfold both. split.
    - intros H. split; [intros j Hj; apply H, in_app_iff; auto|apply H, in_app_iff; simpl; auto].
    - intros (H1 & H2) j Hj. apply in_app_iff in Hj. destruct Hj as [Hj|[<-|[]]]; auto.
  Qed.
  Lemma sign_snoc : forall S i, sign (S ++ [i]) = - sign S.
  Proof. intros S i. unfold sign. rewrite app_length, Nat.add_1_r, Nat.odd_succ, <- Nat.negb_odd. destruct (Nat.odd _); simpl; ring. Qed.
  (** the part of a subset splits into the subset and its extensions *)
  Lemma part_split : forall S i, (i < n)%nat -> part (S, i) = sign S * K (ind (both S)) + sumR (map (fun k => part (S ++ [k], k)) (later i)).
  Proof.
    intros S i Hi. unfold part at 1. cbn [fst snd].
    rewrite (law_ext (I:=K) _ (fun w => ind (both S) w - sumR (map (fun k => ind (both (S ++ [k])) w * none (later k) w) (later i)))).
    - rewrite (law_minus L); auto with bnd; [|apply bnd_sum; intros; apply bnd_mult; auto with bnd; apply none_bnd].
      rewrite (law_sum L _ (later i) (fun k w => ind (both (S ++ [k])) w * none (later k) w)) by (intros; apply bnd_mult; auto with bnd; apply none_bnd).
      rewrite Rmult_minus_distr_l. unfold Rminus. f_equal. rewrite <- Ropp_mult_distr_l_reverse. rewrite <- sumR_scale_l. apply sumR_ext. intros k _. unfold part. cbn [fst snd]. now rewrite sign_snoc.
    - intros w. unfold later at 1. rewrite none_expand by lia. fold (later i). rewrite Rmult_minus_distr_l, Rmult_1_r. f_equal. rewrite <- sumR_scale_l. apply sumR_ext. intros k _. rewrite both_snoc. ring.
  Qed.
  Lemma part_null : forall S S' i, (forall j, In j S' -> In j S) -> K (ind (both S')) = 0 -> part (S, i) = 0.
  Proof.
    intros S S' i Sub Z. unfold part. cbn [fst snd]. rewrite (law_null L (both S') (fun w => ind (both S) w * none (later i) w)); [ring|auto| |].
    - apply bnd_mult; auto with bnd. apply none_bnd.
    - intros w Hw. rewrite ind_false; [ring|]. intros H. apply Hw. intros j Hj. auto.
  Qed.
  Lemma parts_all : sumR (map part (map (fun i => ([i], i)) (seq 0 n))) = K (ind (fun w => exists j, (j < n)%nat /\ ev j w)).
  Proof.
    rewrite map_map. unfold part. cbn [fst snd]. rewrite (sumR_ext _ _ (fun i => K (fun w => ind (ev i) w * none (later i) w))).
    - rewrite <- (law_sum L _ (seq 0 n) (fun i w => ind (ev i) w * none (later i) w)) by (intros; apply bnd_mult; auto with bnd; apply none_bnd).
      apply (law_ext (I:=K)). intro w. pose proof (none_expand n 0 w (Nat.add_0_l n)) as E.
      assert (N : none (seq 0 n) w = 1 - ind (fun w => exists j, (j < n)%nat /\ ev j w) w).
      { rewrite <- ind_not. clear E. assert (Q : forall js, none js w = ind (fun w => ~ exists j, In j js /\ ev j w) w).
        { induction js as [|j js IH]; [unfold none; simpl; symmetry; apply ind_true; intros (j & [] & _)|]. unfold none in *. cbn [map prodR fold_right]. fold (prodR (map (fun j => 1 - ind (ev j) w) js)). rewrite IH, <- ind_not, <- ind_and. apply ind_eq.
          split; [intros (H1 & H2) (k & [<-|Hk] & K0); eauto|]. intros H. split; [intros K0; apply H; exists j; simpl; auto|intros (k & Hk & K0); apply H; exists k; simpl; auto]. }
        rewrite Q. apply ind_eq. split; intros H (j & Hj & Ej); apply H; exists j; (split; [|auto]); [apply in_seq; lia|apply in_seq in Hj; lia]. }
      lra.
    - intros i _. unfold sign. cbn [List.length Nat.odd]. rewrite Rmult_1_l. apply (law_ext (I:=K)). intro w. f_equal. apply ind_eq. unfold both. split; [intros H; apply H; now left|intros H j [<-|[]]; auto].
  Qed.
End IncExc.

(** ** Products of functions of separate variables *)
Section Products.
  Context {N : numsys} {S : logsys} {D : distsys N S}.
  Context (dlaw : dist D -> (fval -> R) -> R).
  Notation den := (den dlaw).
  Notation wf_spe := (wf_spe dlaw).
  Fixpoint prod_from (l : list (spe D)) (g : nat -> asg -> R) (i : nat) (w : asg) : R :=
    match l with [] => 1 | c :: l => g i w * prod_from l g (Datatypes.S i) w end.
  Fixpoint dens_from (l : list (spe D)) (g : nat -> asg -> R) (i : nat) (w : asg) : R :=
    match l with [] => 1 | c :: l => den c (g i) w * dens_from l g (Datatypes.S i) w end.
  Definition local_from (l : list (spe D)) (g : nat -> asg -> R) (i : nat) : Prop :=
    forall j c, nth_error l j = Some c -> bnd (g (i + j)%nat) /\ uses (vars c) (g (i + j)%nat).
  Lemma local_tail : forall c l g i, local_from (c :: l) g i -> local_from l g (Datatypes.S i).
  Proof. intros c l g i H j d Hj. replace (Datatypes.S i + j)%nat with (i + Datatypes.S j)%nat by lia. now apply H. Qed.
  Lemma prod_from_bnd : forall l g i, local_from l g i -> bnd (prod_from l g i).
  Proof.
    induction l as [|c l IH]; intros g i H; [apply bnd_const|]. simpl. apply (bnd_mult _ (g i) (prod_from l g (Datatypes.S i))).
    - destruct (H 0%nat c eq_refl) as (B & _). now rewrite Nat.add_0_r in B.
    - apply IH. now apply (local_tail c).
  Qed.
  Lemma prod_from_ignores : forall l g i (V : string -> Prop), local_from l g i -> (forall x, V x -> ~ pvars l x) -> ignores V (prod_from l g i).
  Proof.
    induction l as [|c l IH]; intros g i V H Hv w w' E; [reflexivity|]. simpl. f_equal.
    - destruct (H 0%nat c eq_refl) as (_ & U). rewrite Nat.add_0_r in U. apply U. intros x Hx. apply E. intros Vx. apply (Hv x Vx). apply pvars_cons. left. now destruct (dec (vars c x)).
    - apply (IH g (Datatypes.S i) V); auto; [now apply (local_tail c)|]. intros x Vx K. apply (Hv x Vx). apply pvars_cons. auto.
  Qed.
  Lemma prod_den : forall l g i w, All wf_spe l -> ForallOrdPairs apart l -> local_from l g i ->
    den_prod den l (prod_from l g i) w = dens_from l g i w.
  Proof.
    induction l as [|c l IH]; intros g i w W Ap H; [reflexivity|]. simpl in W. destruct W as (Wc & Wl). inversion Ap as [|? ? A1 A2]; subst. rewrite Forall_forall in A1.
    assert (Dj : forall x, vars c x -> ~ pvars l x) by (intros x Hx K; apply pvars_in in K; destruct K as (d & Hd & Kd); now apply (A1 d Hd x)).
    destruct (H 0%nat c eq_refl) as (B & U). rewrite Nat.add_0_r in B, U. cbn [dens_from]. rewrite <- (IH g (Datatypes.S i) w Wl A2 (local_tail _ _ _ _ H)).
    apply (prod_split dlaw c l (g i) (prod_from l g (Datatypes.S i)) w); auto.
    - apply prod_from_bnd. now apply (local_tail c).
    - intros a a' E. apply U. intros x Hx. apply E. intros K. destruct (dec (vars c x)) as [K'|K']; [|tauto]. exact (Dj x K' K).
    - apply prod_from_ignores; auto. now apply (local_tail c).
  Qed.
End Products.

Lemma inb_nat : forall k ks, inb Nat.eqb k ks = true <-> In k ks.
Proof.
  intros k ks. rewrite inb_true. split; [intros (y & Hy & E); apply Nat.eqb_eq in E; now subst|intros Hk; exists k; split; auto; apply Nat.eqb_refl].
Qed.
Lemma nodup_app : forall A (l m : list A), NoDup l -> NoDup m -> (forall x, In x l -> ~ In x m) -> NoDup (l ++ m).
Proof.
  induction l as [|a l IH]; intros m Nl Nm H; simpl; auto. inversion Nl; subst. constructor; [|apply IH; auto; intros; apply H; now right].
  rewrite in_app_iff. intros [K|K]; [auto|]. apply (H a); simpl; auto.
Qed.
Lemma prod_subset : forall (h : nat -> R) ks m, NoDup ks -> NoDup m -> incl ks m -> (forall k, In k m -> ~ In k ks -> h k = 1) ->
  prodR (map h m) = prodR (map h ks).
Proof.
  intros h ks m Nk Nm I H. set (rest := filter (fun k => negb (inb Nat.eqb k ks)) m).
  assert (P : Permutation m (ks ++ rest)).
  { apply NoDup_Permutation; auto.
    - apply nodup_app; auto; [now apply NoDup_filter|]. intros k Hk K. apply filter_In in K. destruct K as (_ & K). apply negb_true_iff in K. apply inb_nat in Hk. congruence.
    - intros k. rewrite in_app_iff. unfold rest. rewrite filter_In, negb_true_iff. split.
      + intros Hk. destruct (inb Nat.eqb k ks) eqn:E; [left; now apply inb_nat|auto].
      + intros [Hk|(Hk & _)]; auto. }
  rewrite (prodR_perm _ _ (Permutation_map h P)), map_app, prodR_app. replace (prodR (map h rest)) with 1; [ring|].
  assert (Q : forall k, In k rest -> h k = 1).
  { intros k Hk. apply filter_In in Hk. destruct Hk as (Hk & E). apply H; auto. intros K. apply inb_nat in K. rewrite K in E. discriminate. }
  clear -Q. induction rest as [|k r IH]; auto. simpl. rewrite Q, <- IH by (simpl; auto; intros; apply Q; simpl; auto). ring.
Qed.
Lemma dedup_nat_In : forall l x, In x (dedup Nat.eqb l) <-> In x l.
Proof.
  intros. split; [apply dedup_In|]. induction l as [|w vs IH]; simpl; [auto|]. intros [<-|H].
  - destruct (inb Nat.eqb w vs) eqn:E; [|now left]. apply inb_nat in E. auto.
  - destruct (inb Nat.eqb w vs); [|right]; auto.
Qed.
Lemma dedup_nat_NoDup : forall l, NoDup (dedup Nat.eqb l).
Proof.
  induction l as [|w vs IH]; simpl; [constructor|]. destruct (inb Nat.eqb w vs) eqn:E; auto. constructor; auto. rewrite dedup_nat_In, <- inb_nat. congruence.
Qed.

Section Logprob.
  Context {N : numsys} {S : logsys} {D : distsys N S} (io : iterorder N) (po : polyoracle N) (fuel : nat).
  Context (dlaw : dist D -> (fval -> R) -> R) (ident : spe D -> nat) (nominal : string -> bool).
  Notation spe := (spe D).
  Notation den := (den dlaw).
  Notation wf_spe := (wf_spe dlaw).
  Notation wf_leaf := (wf_leaf dlaw).
  Notation clause := (clause (N:=N)).
  Notation factor := (factor (N:=N)).
  Notation good_clause := (good_clause (N:=N) nominal).
  Notation good_factor := (good_factor (N:=N) nominal).
  Notation lit_kind := (lit_kind (N:=N) nominal).

  (** the variables of atoms are numbers *)
  Fixpoint atoms_ok (s : spe) : Prop :=
    match s with
    | AtomicLeaf _ _ env => forall x, In x (map fst env) -> nominal x = false
    | SumSPE l => All (fun c => atoms_ok (fst c)) l
    | ProductSPE l => All atoms_ok l
    | _ => True
    end.

  (** the expressions in use: their parts are in use, and id() tells them apart *)
  Context (U : spe -> Prop).
  Definition closed : Prop :=
    (forall l c, U (SumSPE l) -> In c l -> U (fst c)) /\ (forall l c, U (ProductSPE l) -> In c l -> U c) /\
    (forall s t, U s -> U t -> ident s = ident t -> s = t).
  Context (Uc : closed).

  Definition prob_ok (s : spe) (f : factor) (p : lg S) : Prop := forall w, toP p = den s (ind (factor_holds f)) w.
  Definition entry_ok (e : (nat * factor) * lg S) : Prop := forall s, U s -> ident s = fst (fst e) -> prob_ok s (snd (fst e)) (snd e).
  Context (C1 : list ((nat * factor) * spe) -> Prop) (C2 : list ((nat * assignment (N:=N)) * (nat * lg S)) -> Prop) (C3 : list ((nat * assignment (N:=N)) * spe) -> Prop).
  Definition valid (m : memo (D:=D)) : Prop := Forall entry_ok (m_logprob m) /\ C1 (m_condition m) /\ C2 (m_logpdf m) /\ C3 (m_constrain m).

  Lemma prob_ok_ext : forall s f g p, (forall w, factor_holds f w <-> factor_holds g w) -> prob_ok s f p -> prob_ok s g p.
  Proof. intros s f g p E H w. rewrite H. now rewrite (ind_iff _ _ _ E). Qed.
  Lemma memo_logprob_ok : forall s f x, U s -> sat valid x (prob_ok s f) -> sat valid (memo_logprob ident s f x) (prob_ok s f).
  Proof.
    intros s f x Us H t Ht. unfold memo_logprob. destruct (find_key factor_key_eqb (ident s, f) (m_logprob t)) as [r|] eqn:E.
    - split; [exact Ht|]. cbn [fst]. intros a Ea. injection Ea as <-. apply find_key_in in E. destruct E as ((k, g) & Ek & Hin). unfold factor_key_eqb in Ek. cbn [fst snd] in Ek.
      apply andb_true_iff in Ek. destruct Ek as (E1 & E2). apply Nat.eqb_eq in E1. destruct Ht as (Ht & _). rewrite Forall_forall in Ht. specialize (Ht _ Hin s Us (eq_sym E1)). cbn [fst snd] in Ht.
      apply (prob_ok_ext s g); auto. intros w. now apply factor_eqb_holds.
    - destruct (H t Ht) as (H1 & H2). destruct (x t) as [[r|e] t']; cbn [fst snd] in *.
      + destruct H1 as (V1 & V2 & V3 & V4). split; [|intros a Ea; apply H2; exact Ea]. split; [|auto]. cbn [m_logprob]. constructor; auto.
        intros s' Us' Ei. cbn [fst snd] in *. destruct Uc as (_ & _ & Inj). rewrite (Inj s' s Us' Us Ei). now apply H2.
      + split; auto; discriminate.
  Qed.

  (** ** Products *)
  Section Product.
    Context (l : list spe) (Wl : wf_spe (ProductSPE l)).
    Definition kids : list (kid (N:=N) (D:=D)) := map (fun c => (get_symbols c, logprob_mem io po fuel ident c)) l.
    Context (Kids : forall c, In c l -> forall f, good_factor f -> sat valid (logprob_mem io po fuel ident c f) (prob_ok c f)).

    Lemma child_of_ok : forall m x i j, child_of x i (map (get_symbols (D:=D)) m) = Some j -> (i <= j)%nat /\ exists c, nth_error m (j - i) = Some c /\ vars c x.
    Proof.
      induction m as [|c m IH]; intros x i j H; cbn [map child_of] in H; [discriminate|]. destruct (child_of x (1 + i) (map get_symbols m)) as [k|] eqn:E.
      - injection H as <-. destruct (IH _ _ _ E) as (Hle & d & Hd & Vd). split; [lia|]. exists d. split; auto. replace (k - i)%nat with (Datatypes.S (k - (1 + i))) by lia. exact Hd.
      - destruct (inb String.eqb x (get_symbols c)) eqn:Ex; [|discriminate]. injection H as <-. split; [lia|]. exists c. rewrite Nat.sub_diag. split; auto. apply inb_string in Ex. now apply (get_symbols_vars dlaw).
    Qed.
    Lemma lookup_ok : forall x i, lookup_child kids x = Ok i -> exists c, nth_error l i = Some c /\ vars c x.
    Proof.
      intros x i H. unfold lookup_child, kids in H. rewrite map_map in H. cbn [fst] in H. destruct (child_of x 0 _) as [j|] eqn:E; [|discriminate]. injection H as <-.
      apply child_of_ok in E. destruct E as (_ & c & E & V). rewrite Nat.sub_0_r in E. eauto.
    Qed.

    Definition item_ok (p : string * tr N) : Prop := gev (snd p) /\ Forall (lit_kind (fst p)) (lits (snd p)).
    Lemma item_symbols : forall p x, item_ok p -> In x (symbols (snd p)) -> x = fst p.
    Proof.
      intros p x (_ & F) H. apply symbols_lits in H. destruct H as (y & Hy & Hx). rewrite Forall_forall in F. destruct (F y Hy) as (k & v & -> & _). simpl in Hx. destruct Hx as [<-|[]]. reflexivity.
    Qed.
    Lemma items_good : forall J, Forall good_clause J -> Forall item_ok (conj_items J).
    Proof. intros J F. unfold conj_items. apply Forall_concat. eapply Forall_impl; [|exact F]. intros c (Fc & _). exact Fc. Qed.

    (** the part of a conjunction that concerns one child *)
    Definition share (items : list (string * tr N)) (key : nat) (w : asg) : Prop :=
      forall p, In p items -> lookup_child kids (fst p) = Ok key -> holds (snd p) w.
    Lemma conj_clause_from : forall items key c0 c, Forall item_ok items -> good_clause c0 ->
      foldM (fun c p => do i <- lookup_child kids (fst p); if Nat.eqb i key then add_key io c (fst p) (snd p) else Ok c) items c0 = Ok c ->
      good_clause c /\ (forall w, clause_holds c w <-> clause_holds c0 w /\ share items key w) /\
      ((c0 <> [] \/ exists p, In p items /\ lookup_child kids (fst p) = Ok key) -> c <> []).
    Proof.
      induction items as [|p items IH]; intros key c0 c F G H; cbn [foldM] in H.
      - injection H as <-. split; auto. split; [intros w; unfold share; split; [intros K; split; auto; intros p []|tauto]|]. intros [K|(p & [] & _)]; auto.
      - inversion F as [|? ? (Gp & Lp) F']; subst. inv_bind H. inv_bind E. destruct (Nat.eqb_spec r0 key) as [->|Ne].
        + destruct (add_key_ok io lit_kind c0 (fst p) (snd p) r (lit_kind_merge io nominal) G Gp Lp E) as (Gr & Hr & Kr). destruct (IH key r c F' Gr H) as (Gc & Hc & Nc). split; auto. split.
          * intros w. rewrite Hc, Hr. unfold share. split.
            -- intros ((A & B) & C). split; auto. intros q [<-|Hq] Eq; auto.
            -- intros (A & B). split; [split; auto; apply B; simpl; auto|]. intros q Hq Eq. apply B; simpl; auto.
          * intros _. apply Nc. left. intros ->. destruct (proj2 (Kr (fst p)) (or_intror eq_refl)).
        + injection E as <-. destruct (IH key c0 c F' G H) as (Gc & Hc & Nc). split; auto. split.
          * intros w. rewrite Hc. unfold share. split.
            -- intros (A & B). split; auto. intros q [<-|Hq] Eq; auto. congruence.
            -- intros (A & B). split; auto. intros q Hq Eq. apply B; simpl; auto.
          * intros [K|(q & [<-|Hq] & Eq)]; apply Nc; auto; [congruence|]. right. eauto.
    Qed.
    Lemma good_nil : good_clause [].
    Proof. split; constructor. Qed.
    Lemma share_key : forall J key, Forall good_clause J -> (exists p, In p (conj_items J) /\ lookup_child kids (fst p) = Ok key) ->
      sat valid (logprob_conjunction_key io kids J key) (fun p => exists c, nth_error l key = Some c /\ forall w, toP p = den c (ind (share (conj_items J) key)) w).
    Proof.
      intros J key F Ex. unfold logprob_conjunction_key.
      apply sat_bind with (P := fun c => conjunction_clause io kids J key = Ok c); [apply sat_lift; auto|]. intros c Hc.
      destruct (conj_clause_from _ key [] c (items_good J F) good_nil Hc) as (Gc & Hh & Nc). destruct c as [|p0 c0]; [destruct (Nc (or_intror Ex) eq_refl)|].
      destruct Ex as (p & Hp & El). destruct (lookup_ok _ _ El) as (c & Ec & Vc). replace (nth_error kids key) with (Some (get_symbols c, logprob_mem io po fuel ident c)) by (unfold kids; now rewrite nth_error_map, Ec). cbn [snd].
      assert (Hin : In c l) by (eapply nth_error_In; eauto). apply sat_weaken with (P := prob_ok c [p0 :: c0]); [apply Kids; auto; constructor; auto|].
      intros a Ha. exists c. split; auto. intros w. rewrite (Ha w). f_equal. apply ind_iff. intros w'. unfold factor_holds. split.
      - intros (c' & [<-|[]] & K). now apply Hh in K.
      - intros K. exists (p0 :: c0). split; [now left|]. apply Hh. split; auto. intros k e [].
    Qed.
    Lemma share_uses : forall items key c, Forall item_ok items -> nth_error l key = Some c -> uses (vars c) (ind (share items key)).
    Proof.
      intros items key c F Ec w w' E. apply ind_eq. assert (Q : forall p, In p items -> lookup_child kids (fst p) = Ok key -> (holds (snd p) w <-> holds (snd p) w')).
      { intros p Hp El. rewrite Forall_forall in F. pose proof (F p Hp) as Ip. destruct (lookup_ok _ _ El) as (c' & Ec' & Vc). rewrite Ec in Ec'. injection Ec' as <-.
        unfold holds. rewrite (teval_agree (snd p) w w'); [tauto|apply Ip|]. intros x Hx. apply (item_symbols p) in Hx; auto. subst x. apply E. tauto. }
      unfold share. split; intros H p Hp El; apply (Q p Hp El); auto.
    Qed.
    Lemma prod_from_ind : forall (m : list spe) (P : nat -> asg -> Prop) i w, prod_from m (fun k => ind (P k)) i w = ind (fun w => forall k, (i <= k < i + List.length m)%nat -> P k w) w.
    Proof.
      induction m as [|c m IH]; intros P i w; cbn [prod_from List.length].
      - symmetry. apply ind_true. intros k Hk. lia.
      - rewrite IH, <- ind_and. apply ind_eq. split.
        + intros (H1 & H2) k Hk. destruct (Nat.eq_dec k i) as [->|]; auto. apply H2. lia.
        + intros H. split; [apply H; lia|]. intros k Hk. apply H. lia.
    Qed.
    Lemma dens_from_prod : forall (m : list spe) g i w, dens_from dlaw m g i w = prodR (map (fun k => match nth_error m (k - i) with Some c => den c (g k) w | None => 1 end) (seq i (List.length m))).
    Proof.
      induction m as [|c m IH]; intros g i w; [reflexivity|]. cbn [dens_from List.length seq map prodR fold_right]. rewrite Nat.sub_diag. cbn [nth_error]. f_equal. rewrite IH. apply prodR_ext.
      intros k Hk. apply in_seq in Hk. replace (k - i)%nat with (Datatypes.S (k - Datatypes.S i)) by lia. reflexivity.
    Qed.
    Lemma fold_ladd : forall (ps : list (lg S)) (a : lg S), toP (fold_left ladd ps a) = toP a * prodR (map toP ps).
    Proof. induction ps as [|p ps IH]; intros a; cbn [fold_left map prodR fold_right]; [ring|]. rewrite IH, ladd_ok. unfold prodR. ring. Qed.

    Definition all_hold (J : list clause) (w : asg) : Prop := forall c, In c J -> clause_holds c w.
    Theorem conjunction_ok : forall J, Forall good_clause J ->
      sat valid (logprob_conjunction io kids J) (fun p => forall w, toP p = den (ProductSPE l) (ind (all_hold J)) w).
    Proof.
      intros J F. unfold logprob_conjunction. set (items := conj_items J).
      apply sat_bind with (P := fun keys => mapM (fun p => lookup_child kids (fst p)) items = Ok keys); [apply sat_lift; auto|]. intros keys Hk. apply mapM_Forall2 in Hk.
      apply sat_bind with (P := Forall2 (fun k p => exists c, nth_error l k = Some c /\ forall w, toP p = den c (ind (share items k)) w) (dedup Nat.eqb keys)).
      { apply sat_mmap. intros k Hin. apply share_key; auto. apply (proj1 (dedup_nat_In _ _)) in Hin. destruct (Forall2_in_r _ _ _ _ _ _ Hk Hin) as (p & Hp & El). exists p. auto. }
      intros ps Hps. apply sat_ret. intros w. rewrite fold_ladd, lzero_ok, Rmult_1_l.
      pose proof Wl as (Ne & Wa & Ap). pose proof (items_good J F) as Fi. fold items in Fi.
      assert (Loc : local_from l (fun k => ind (share items k)) 0).
      { intros j c Hj. rewrite Nat.add_0_l. split; auto with bnd. now apply share_uses. }
      transitivity (den_prod den l (prod_from l (fun k => ind (share items k)) 0) w).
      - rewrite (prod_den dlaw l _ 0 w Wa Ap Loc), dens_from_prod. rewrite (prod_subset _ (dedup Nat.eqb keys)).
        + clear -Hps. induction Hps as [|k p ks ps (c & Ec & Hp) F IH]; auto. cbn [map prodR fold_right]. unfold prodR in IH. rewrite IH, Nat.sub_0_r, Ec. now rewrite <- Hp.
        + apply dedup_nat_NoDup.
        + apply seq_NoDup.
        + intros k Hin. destruct (Forall2_in_l _ _ _ _ _ _ Hps Hin) as (p & _ & c & Ec & _). apply in_seq. split; [lia|]. simpl. apply nth_error_Some. congruence.
        + intros k _ Hn. rewrite Nat.sub_0_r. destruct (nth_error l k) as [c|] eqn:Ec; auto.
          assert (Wc : wf_spe c) by (eapply prod_wf; [exact Wl|]; eapply nth_error_In; eauto).
          rewrite (law_ext (I:=fun f => den c f w) _ (fun _ => 1)); [apply (law_const (den_kernel dlaw c Wc w))|]. intros a. apply ind_true. intros p Hp El. exfalso. apply Hn. apply dedup_nat_In.
          destruct (Forall2_in_l _ _ _ _ _ _ Hk Hp) as (k' & Hk' & El'). congruence.
      - cbn [SpeSpec.den]. f_equal. extensionality a. rewrite prod_from_ind. apply ind_eq. unfold all_hold, share. split.
        + intros H c Hc k e He. assert (Hi : In (k, e) items) by (unfold items, conj_items; apply in_concat; eauto).
          destruct (Forall2_in_l _ _ _ _ _ _ Hk Hi) as (i & _ & El). apply (H i) with (p := (k, e)) in El; auto. split; [lia|]. simpl. apply nth_error_Some.
          destruct (lookup_ok _ _ El) as (c' & Ec & _). congruence.
        + intros H k _ p Hp _. unfold items, conj_items in Hp. apply in_concat in Hp. destruct Hp as (c & Hc & Hp). destruct p as (x, e). apply (H c Hc x e Hp).
    Qed.

    Context (f : factor) (Gf : good_factor f).
    Notation n := (List.length f).
    Definition ev_of (j : nat) (w : asg) : Prop := clause_holds (nth j f []) w.
    Notation PrK w := (fun g => den (ProductSPE l) g w).
    Notation part_of w := (part (K := PrK w) ev_of n).
    Lemma subset_good : forall J, Forall good_clause (map (fun j => nth j f []) J).
    Proof. intros J. rewrite Forall_map. apply Forall_forall. intros j _. destruct (nth_in_or_default j f []) as [H|E]; [unfold MemoProofs.good_factor in Gf; rewrite Forall_forall in Gf; auto|rewrite E; apply good_nil]. Qed.
    Lemma all_both : forall J w, all_hold (map (fun j => nth j f []) J) w <-> both ev_of J w.
    Proof.
      intros J w. unfold all_hold, both, ev_of. split.
      - intros H j Hj. apply H. apply in_map_iff. eauto.
      - intros H c Hc. apply in_map_iff in Hc. destruct Hc as (j & <- & Hj). auto.
    Qed.
    Lemma ie_loop_ok : forall k stack avoid pos neg, Forall (fun p => (snd p < n)%nat) stack ->
      Forall (fun b => forall w, den (ProductSPE l) (ind (both ev_of b)) w = 0) avoid ->
      sat valid (ie_loop io kids f k stack avoid pos neg)
        (fun pn => forall w, sumR (map toP (fst pn)) - sumR (map toP (snd pn)) = sumR (map toP pos) - sumR (map toP neg) + sumR (map (part_of w) stack)).
    Proof.
      induction k as [|k IH]; intros [|(sub, i) stack] avoid pos neg Fs Fa; cbn [ie_loop]; try (apply sat_ret; intros w; cbn [fst snd]; rewrite <- (Rplus_0_r (sumR (map toP pos) - sumR (map toP neg))) at 1; reflexivity).
      { apply sat_lift. intros a K; discriminate K. }
      inversion Fs as [|? ? Hi Fs']; subst. cbn [snd] in Hi.
      destruct (existsb _ avoid) eqn:Ea.
      - eapply sat_weaken; [apply IH; auto|]. intros pn H w. rewrite (H w). f_equal. cbn [map sumR fold_right]. fold (sumR (map (part_of w) stack)).
        apply existsb_exists in Ea. destruct Ea as (b & Hb & Eb). apply andb_true_iff in Eb. destruct Eb as (_ & Eb). rewrite forallb_forall in Eb. rewrite Forall_forall in Fa.
        rewrite (part_null (den_kernel dlaw _ Wl w) ev_of n sub b i); [ring| |now apply Fa]. intros j Hj. apply inb_nat. auto.
      - apply sat_bind with (P := fun p => forall w, toP p = den (ProductSPE l) (ind (all_hold (map (fun j => nth j f []) sub))) w); [apply conjunction_ok, subset_good|].
        intros p Hp. assert (Hp' : forall w, toP p = den (ProductSPE l) (ind (both ev_of sub)) w) by (intros w; rewrite (Hp w); f_equal; apply ind_iff; intro; apply all_both).
        assert (Fs2 : Forall (fun p => (snd p < n)%nat) (stack ++ map (fun i0 => (sub ++ [i0], i0)) (seq (1 + i) (n - (1 + i))))).
        { apply Forall_app. split; auto. rewrite Forall_map. apply Forall_forall. intros j Hj. apply in_seq in Hj. cbn [snd]. lia. }
        assert (Fa2 : Forall (fun b => forall w, den (ProductSPE l) (ind (both ev_of b)) w = 0) (if lisninf p then avoid ++ [sub] else avoid)).
        { destruct (lisninf p) eqn:Ep; auto. apply Forall_app. split; auto. constructor; auto. intros w. rewrite <- (Hp' w). now apply lisninf_ok. }
        assert (Sp : forall w, sumR (map (part_of w) ((sub, i) :: stack)) = sign sub * toP p + sumR (map (part_of w) (stack ++ map (fun i0 => (sub ++ [i0], i0)) (seq (1 + i) (n - (1 + i)))))).
        { intros w. cbn [map sumR fold_right]. fold (sumR (map (part_of w) stack)). rewrite (part_split (den_kernel dlaw _ Wl w) ev_of n sub i Hi). rewrite map_app, sumR_app, map_map. rewrite (Hp' w). unfold later. ring. }
        unfold sign in Sp. destruct (Nat.odd (List.length sub)); (eapply sat_weaken; [apply IH; auto|]); intros pn H w; rewrite (H w), Sp, map_app, sumR_app; cbn [map sumR fold_right]; ring.
    Qed.
    Theorem product_logprob_ok : sat valid (product_logprob io kids f) (prob_ok (ProductSPE l) f).
    Proof.
      unfold product_logprob.
      apply sat_bind with (P := fun pn => forall w, sumR (map toP (fst pn)) - sumR (map toP (snd pn)) = den (ProductSPE l) (ind (factor_holds f)) w).
      { eapply sat_weaken; [apply ie_loop_ok; [|constructor]|].
        - rewrite Forall_map. apply Forall_forall. intros j Hj. apply in_seq in Hj. cbn [snd]. lia.
        - intros pn H w. rewrite (H w), (parts_all (den_kernel dlaw _ Wl w)). cbn [map sumR fold_right]. rewrite Rminus_0_r, Rplus_0_l. f_equal. apply ind_iff. intros a. unfold factor_holds, ev_of. split.
          + intros (j & Hj & K). exists (nth j f []). split; auto. now apply nth_In.
          + intros (c & Hc & K). destruct (In_nth f c [] Hc) as (j & Hj & <-). eauto. }
      intros (pos, neg) H. cbn [fst snd] in H.
      assert (P01 : forall w, 0 <= den (ProductSPE l) (ind (factor_holds f)) w) by (intros w; apply (law_01 (den_kernel dlaw _ Wl w))).
      assert (Nn : 0 <= sumR (map toP neg)) by (apply sumR_nonneg; rewrite Forall_map; apply Forall_forall; intros; apply toP_nonneg).
      apply sat_bind with (P := fun p => toP p = sumR (map toP pos)).
      { apply sat_lift. intros p Hp. now apply lse_sum in Hp. }
      intros p Hp. cbn [snd]. destruct (lisninf p) eqn:Ep.
      - apply sat_ret. intros w. apply lisninf_ok in Ep. specialize (H w). specialize (P01 w). lra.
      - destruct neg as [|q0 neg0]; cbn [is_nil orb].
        + apply sat_ret. intros w. rewrite <- (H w). cbn. lra.
        + apply sat_bind with (P := fun q => toP q = sumR (map toP (q0 :: neg0))); [apply sat_lift; intros q Hq; now apply lse_sum in Hq|].
          intros q Hq. apply sat_lift. intros r Hr w. rewrite <- (H w). rewrite <- Hp, <- Hq. apply ldiff_sum; auto. specialize (H w). specialize (P01 w). rewrite <- Hp, <- Hq in H. lra.
    Qed.
  End Product.

  Lemma leaf_factor_ok : forall s f, wf_leaf s -> atoms_ok s -> good_factor f -> forall p,
    (do e <- event_factor_to_event io f; leaf_logprob io po fuel s e) = Ok p -> prob_ok s f p.
  Proof.
    intros s f W A G p H w. inv_bind H. destruct (event_factor_ok io nominal f r G E) as (Ge & He & Le). pose proof (lit_in_on_vars _ _ _ Le) as Ov.
    assert (Rg : surely dlaw s (regular true r)).
    { intros w'. rewrite (law_ext (I:=fun g => den s g w') _ (fun _ => 0)); [apply (law_const (den_kernel dlaw s (proj2 (wf_leaf_spe dlaw s (wf_leaf_leaf dlaw s W)) W) w'))|]. intros a. apply ind_false. intros K. apply K. now apply on_vars_regular. }
    rewrite (fun At => leaf_logprob_ok io po fuel dlaw s r p W Ge Rg At H w).
    - f_equal. now apply ind_iff.
    - intros At. destruct s as [| x a env| | |]; try contradiction. cbn [atoms_ok] in A. apply (lit_in_num nominal _ _ Le). intros y Hy. apply A.
      unfold leaf_logprob in H. inv_bind H. unfold leaf_event in E0. inv_bind E0. inv_bind E0. unfold passert in E2. cbn [leaf_env snd fst] in E2.
      destruct (forallb _ (symbols r)) eqn:Ef; [|discriminate]. rewrite forallb_forall in Ef. now apply inb_string, Ef.
  Qed.
  Theorem logprob_mem_ok : forall s, U s -> wf_spe s -> atoms_ok s -> forall f, good_factor f -> sat valid (logprob_mem io po fuel ident s f) (prob_ok s f).
  Proof.
    induction s using spe_ind'; intros Us W A f G; cbn [logprob_mem]; apply memo_logprob_ok; auto.
    - apply sat_lift. now apply leaf_factor_ok.
    - apply sat_lift. now apply leaf_factor_ok.
    - apply sat_lift. now apply leaf_factor_ok.
    - apply sat_bind with (P := Forall2 (fun c p => forall w, toP p = den (fst c) (ind (factor_holds f)) w * toP (snd c)) l).
      + apply sat_mmap. intros c Hc. apply sat_bind with (P := prob_ok (fst c) f).
        * apply H; auto; [eapply (proj1 Uc); eauto|eapply sum_wf; eauto|]. apply (All_In _ _ _ _ A Hc).
        * intros p Hp. apply sat_ret. intros w. now rewrite ladd_ok, (Hp w).
      + intros ps Hps. apply sat_lift. intros p Hp w. apply lse_sum in Hp. destruct Hp as (_ & ->). cbn [SpeSpec.den]. symmetry. apply Forall2_sumR. clear -Hps. induction Hps as [|c p l ps Hp F IH]; constructor; auto. rewrite (Hp w). ring.
    - apply (product_logprob_ok l W); auto. intros c Hc. apply H; auto; [eapply (proj1 (proj2 Uc)); eauto|eapply prod_wf; eauto|]. apply (All_In _ _ _ _ A Hc).
  Qed.
End Logprob.
