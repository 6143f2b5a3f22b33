(** The polynomial solver: exactness of the numerical fallback and of the whole solver. *)
From Coq Require Import List Bool String Reals Lra Lia ZArith Classical Permutation.
From Verif Require Import Base Num Sets SetSpec SetIv SetProofs SetIvOr SetOr SetOps SetAlg SetBuilt
  Poly Trans TransSpec TransFacts.
Import ListNotations.
Local Open Scope R_scope.

(** ** Signs of products of linear factors *)

Lemma Rprod_perm : forall l l' x, Permutation l l' -> Rprod l x = Rprod l' x.
Proof.
  intros l l' x H. induction H; simpl; try congruence. ring.
Qed.
Lemma Rprod_same : forall rs u v, (forall r, In r rs -> u < r /\ v < r \/ r < u /\ r < v) ->
  0 < Rprod rs u * Rprod rs v.
Proof.
  induction rs as [|r rs IH]; simpl; intros u v H; [lra|].
  assert (G : 0 < Rprod rs u * Rprod rs v) by (apply IH; auto).
  replace ((u - r) * Rprod rs u * ((v - r) * Rprod rs v)) with
    (((u - r) * (v - r)) * (Rprod rs u * Rprod rs v)) by ring.
  apply Rmult_lt_0_compat; [|exact G]. destruct (H r (or_introl eq_refl)); nra.
Qed.
Lemma Rprod_root : forall rs x, Rprod rs x = 0 <-> In x rs.
Proof.
  induction rs as [|r rs IH]; simpl; intros x; [lra|]. rewrite <- IH. split.
  - intros H. apply Rmult_integral in H. destruct H; [left; lra|auto].
  - intros [->|H]; [ring|rewrite H; ring].
Qed.

Section Sign.
  Context (f : R -> R) (rs : list R) (H : roots_of f rs).
  Lemma roots_zero : forall x, f x = 0 <-> In x rs.
  Proof.
    destruct H as (q & E & S). intros x. rewrite E, <- Rprod_root. split; [|intros ->; ring].
    intros Z. apply Rmult_integral in Z. destruct Z as [Z|Z]; [auto|].
    destruct S as [S|S]; specialize (S x); lra.
  Qed.
  Lemma sign_same : forall u v, (forall r, In r rs -> u < r /\ v < r \/ r < u /\ r < v) ->
    (f u < 0 <-> f v < 0).
  Proof.
    intros u v G. apply Rprod_same in G. destruct H as (q & E & S). rewrite !E.
    set (A := Rprod rs u) in *. set (B := Rprod rs v) in *.
    assert (AB : (0 < A /\ 0 < B) \/ (A < 0 /\ B < 0)).
    { destruct (Rtotal_order A 0) as [?|[?|?]]; destruct (Rtotal_order B 0) as [?|[?|?]]; nra. }
    destruct S as [S|S]; pose proof (S u) as Su; pose proof (S v) as Sv;
      destruct AB as [(A1 & B1)|(A1 & B1)];
      pose proof (Rmult_lt_0_compat A (q u)); pose proof (Rmult_lt_0_compat B (q v));
      pose proof (Rmult_lt_0_compat (- A) (q u)); pose proof (Rmult_lt_0_compat (- B) (q v));
      pose proof (Rmult_lt_0_compat A (- q u)); pose proof (Rmult_lt_0_compat B (- q v));
      pose proof (Rmult_lt_0_compat (- A) (- q u)); pose proof (Rmult_lt_0_compat (- B) (- q v));
      split; intros; lra.
  Qed.
  Lemma sign_change : forall r u v, NoDup rs -> In r rs -> u < r < v ->
    (forall s, In s rs -> s <> r -> u < s /\ v < s \/ s < u /\ s < v) -> f u < 0 \/ f v < 0.
  Proof.
    intros r u v ND I L G. destruct (in_split _ _ I) as (l1 & l2 & ->).
    assert (P : Permutation (l1 ++ r :: l2) (r :: l1 ++ l2)) by (symmetry; apply Permutation_middle).
    assert (Gr : 0 < Rprod (l1 ++ l2) u * Rprod (l1 ++ l2) v).
    { apply Rprod_same. intros s Hs. apply G.
      - eapply Permutation_in; [symmetry; exact P|]. now right.
      - intros ->. apply (Permutation_NoDup P) in ND. inversion ND; tauto. }
    destruct H as (q & E & S). rewrite !E, !(Rprod_perm _ _ _ P). simpl.
    set (A := Rprod (l1 ++ l2) u) in *. set (B := Rprod (l1 ++ l2) v) in *.
    assert (AB : (0 < A /\ 0 < B) \/ (A < 0 /\ B < 0)).
    { destruct (Rtotal_order A 0) as [?|[?|?]]; destruct (Rtotal_order B 0) as [?|[?|?]]; nra. }
    assert (Neg : forall a b c, 0 < b -> 0 < c -> a < 0 -> a * b * c < 0).
    { intros. assert (0 < b * c) by nra. nra. }
    assert (Neg2 : forall a b c, b < 0 -> c < 0 -> a < 0 -> a * b * c < 0).
    { intros. assert (0 < b * c) by nra. nra. }
    assert (Neg3 : forall a b c, 0 < a -> b < 0 -> 0 < c -> a * b * c < 0).
    { intros. assert (0 < a * c) by nra. nra. }
    assert (Neg4 : forall a b c, 0 < a -> 0 < b -> c < 0 -> a * b * c < 0).
    { intros. assert (0 < a * b) by nra. nra. }
    destruct S as [S|S]; pose proof (S u); pose proof (S v); destruct AB as [(A1 & B1)|(A1 & B1)].
    - left. apply Neg; lra.
    - right. apply Neg3; lra.
    - right. apply Neg4; lra.
    - left. apply Neg2; lra.
  Qed.
End Sign.

Section Solver.
  Context {N : numsys} (io : iterorder N) (po : polyoracle N).
  Notation enum := (ext (num N)).
  Notation num := (num N).

  Lemma peval_ok : forall (cs : list num) x, toR (peval cs x) = Rpoly cs (toR x).
  Proof.
    induction cs as [|c cs IH]; simpl; intros x; [apply nint_ok|].
    now rewrite nadd_ok, nmul_ok, IH.
  Qed.

  Definition strictly (y : R) (i : interval N) : Prop := above (iv_a i) true y /\ below (iv_b i) true y.

  Lemma nhalf_ok : toR (nhalf (N:=N)) = / 2.
  Proof. unfold nhalf. rewrite ninv_ok; rewrite nint_ok; lra. Qed.

  Lemma Interval_fin : forall a b lo ro (i : interval N), Interval_ a b lo ro = Ok i ->
    elt (eR a) (eR b) /\ i = mkIv a b (lo || is_ninf a) (ro || is_pinf b).
  Proof.
    intros a b lo ro i H. unfold Interval_ in H. destruct (eltb a b) eqn:E; [|discriminate].
    cbn [passert bind] in H. injection H as <-. now apply eltb_elt in E.
  Qed.

  (** the pairs (interval, probe) right of the zero x *)
  Lemma mids_ok : forall strict l x jj, mids strict x l = Ok jj ->
    List.length (probes x l) = List.length jj /\
    (forall y, In y l -> toR x < toR y) /\ NoDup (map toR (x :: l)) /\
    (forall i p, In (i, p) (combine jj (probes x l)) ->
       strictly (toR p) i /\ wf_iv i /\ (forall y, strictly y i -> toR x < y) /\
       (exists a, iv_a i = Fin a /\ In a (x :: l)) /\
       (iv_b i = PInf \/ exists b, iv_b i = Fin b /\ In b l) /\
       (iv_lo i = strict) /\ (iv_ro i = strict \/ iv_b i = PInf) /\
       (forall r, In r (x :: l) -> ~ strictly (toR r) i)) /\
    (forall y, toR x < y -> ~ In y (map toR l) ->
       exists i p, In (i, p) (combine jj (probes x l)) /\ strictly y i) /\
    (forall r, In r (x :: l) -> exists i p, In (i, p) (combine jj (probes x l)) /\ iv_a i = Fin r) /\
    (forall r, In r l -> exists i p, In (i, p) (combine jj (probes x l)) /\ iv_b i = Fin r).
  Proof.
    intros strict. induction l as [|z l IH]; intros x jj H; cbn [mids probes] in *; inv_bind H.
    - injection H as <-. rename r into i. pose proof (Interval_wf _ _ _ _ _ E) as W.
      apply Interval_fin in E. destruct E as (_ & Ei).
      assert (S : forall y, strictly y i <-> toR x < y) by (intros y; rewrite Ei; unfold strictly; simpl; tauto).
      ands; simpl.
      + reflexivity.
      + tauto.
      + constructor; [tauto|constructor].
      + intros j p [[= <- <-]|[]]. ands.
        * rewrite S, nadd_ok, nhalf_ok. lra.
        * exact W.
        * intros y. now rewrite S.
        * exists x. rewrite Ei. simpl. auto.
        * left. now rewrite Ei.
        * rewrite Ei. simpl. apply orb_false_r.
        * right. now rewrite Ei.
        * intros r [<-|[]]. rewrite S. lra.
      + intros y Hy _. exists i, (nadd x nhalf). rewrite S. auto.
      + intros r [<-|[]]. exists i, (nadd x nhalf). rewrite Ei. auto.
      + tauto.
    - inv_bind H. injection H as <-. rename r into i, r0 into jj. pose proof (Interval_wf _ _ _ _ _ E) as W.
      apply Interval_fin in E. destruct E as (Lxz & Ei). simpl in Lxz.
      assert (S : forall y, strictly y i <-> toR x < y < toR z).
      { intros y; rewrite Ei; unfold strictly; simpl; tauto. }
      apply IH in E0. destruct E0 as (Len & Lt & ND & P1 & P2 & P3 & P4).
      ands; cbn [combine List.length In map].
      + now rewrite Len.
      + intros y [<-|Hy]; [auto|]. apply Lt in Hy. lra.
      + constructor; [|exact ND]. intros Hx. change (In (toR x) (map toR (z :: l))) in Hx.
        apply in_map_iff in Hx. destruct Hx as (y & Ey & [<-|Hy]); [lra|]. apply Lt in Hy. lra.
      + intros j p [[= <- <-]|Hj].
        * ands.
          -- rewrite S, nmul_ok, nadd_ok, nhalf_ok. lra.
          -- exact W.
          -- intros y. rewrite S. tauto.
          -- exists x. rewrite Ei. simpl. auto.
          -- right. exists z. rewrite Ei. simpl. auto.
          -- rewrite Ei. simpl. apply orb_false_r.
          -- left. rewrite Ei. simpl. apply orb_false_r.
          -- intros r Hr. rewrite S. destruct Hr as [<-|[<-|Hr]]; [lra|lra|]. apply Lt in Hr. lra.
        * destruct (P1 _ _ Hj) as (A & B & C & (a & A1 & A2) & F & G & K & L). ands; auto.
          -- intros y Hy. apply C in Hy. lra.
          -- exists a. auto.
          -- destruct F as [F|(b & F1 & F2)]; [now left|right; exists b; auto].
          -- intros r [<-|Hr]; [|auto]. intros Hs. apply C in Hs. lra.
      + intros y Hy Hn. destruct (Rtotal_order y (toR z)) as [?|[?|?]].
        * exists i, (nmul (nadd x z) nhalf). rewrite S. auto.
        * exfalso. apply Hn. auto.
        * destruct (P2 y) as (j & p & Hj & Hs); auto. exists j, p. auto.
      + intros r [<-|Hr].
        * exists i, (nmul (nadd x z) nhalf). rewrite Ei. auto.
        * destruct (P3 r Hr) as (j & p & Hj & Hs). exists j, p. auto.
      + intros r [<-|Hr].
        * exists i, (nmul (nadd x z) nhalf). rewrite Ei. auto.
        * destruct (P4 r Hr) as (j & p & Hj & Hs). exists j, p. auto.
  Qed.

  Definition sat (cs : list num) (b : num) (strict : bool) (x : R) : Prop :=
    if strict then Rpoly cs x < toR b else Rpoly cs x <= toR b.

  Lemma iv_strictly : forall i y, wf_iv (N:=N) i -> fm (FNum y) (PB (BInt i)) ->
    strictly y i \/ (exists a, iv_a i = Fin a /\ toR a = y /\ iv_lo i = false)
    \/ (exists b, iv_b i = Fin b /\ toR b = y /\ iv_ro i = false).
  Proof.
    intros i y W H. apply iv_fm in H. destruct H as (H1 & H2). unfold strictly.
    destruct i as [a b lo ro]. simpl in *.
    destruct a as [|a|]; simpl in H1; [| |tauto];
    destruct b as [|b|]; simpl in H2; try tauto; simpl.
    - destruct ro; [tauto|]. destruct (Req_dec (toR b) y); [eauto 6|]. left. split; [auto|lra].
    - destruct lo, ro; [left; lra|..].
      + destruct (Req_dec (toR b) y); [eauto 6|]. left. lra.
      + destruct (Req_dec (toR a) y); [eauto 6|]. left. lra.
      + destruct (Req_dec (toR a) y); [eauto 6|]. destruct (Req_dec (toR b) y); [eauto 6|]. left. lra.
    - destruct lo; [tauto|]. destruct (Req_dec (toR a) y); [eauto 6|]. left. split; [lra|auto].
  Qed.
  Lemma strictly_fm : forall i y, strictly y i -> fm (N:=N) (FNum y) (PB (BInt i)).
  Proof.
    intros [a b lo ro] y (H1 & H2). apply iv_fm. simpl in *.
    split; [destruct a; simpl in *|destruct b; simpl in *]; try tauto; [destruct lo|destruct ro]; lra.
  Qed.

  Lemma nleb_total : forall x y : num, nleb x y = true \/ nleb y x = true.
  Proof. intros x y. rewrite !nleb_ok. lra. Qed.
  Lemma nleb_trans : forall x y z : num, nleb x y = true -> nleb y z = true -> nleb x z = true.
  Proof. intros x y z. rewrite !nleb_ok. lra. Qed.

  Lemma iv_inffree : forall i, wf_iv (N:=N) i -> inffree (PB (BInt i)).
  Proof.
    intros i Wi x Hx. simpl in Hx. apply iv_mem_pm in Hx. apply wf_iv_cases in Wi. destruct Wi as (W1 & W2 & W3 & W4 & W5).
    destruct x as [|x|]; eauto; exfalso; unfold pm in Hx; simpl in Hx;
    destruct (iv_lo i), (iv_ro i); try specialize (W4 eq_refl); try specialize (W5 eq_refl); lra.
  Qed.

  Lemma combine_In_l : forall A B (l : list A) (m : list B) a b, In (a, b) (combine l m) -> In a l.
  Proof. intros. eapply in_combine_l; eauto. Qed.

  Theorem solve_ineq_num_ok : forall cs b strict s, solve_ineq_num io po cs b strict = Ok s ->
    wf s /\ real_set s /\ inffree s /\ (forall x, fm (FNum x) s <-> sat cs b strict x).
  Proof.
    intros cs b strict s H. unfold solve_ineq_num, nroots in H.
    destruct (po_nroots po cs b) as [roots|] eqn:E; [|discriminate]. cbn [bind] in H.
    apply po_nroots_ok in E.
    pose proof (sort_perm nleb roots) as PS.
    destruct (sort nleb roots) as [|z zs] eqn:Es; [discriminate|].
    inv_bind H. inv_bind H. rename r into i0, r0 into jj. cbv zeta in H.
    set (f := fun x => Rpoly cs x - toR b) in *.
    assert (RO : roots_of f (map toR (z :: zs))).
    { destruct E as (q & Eq & Sq). exists q. split; [|exact Sq]. intros x. rewrite Eq.
      rewrite (Rprod_perm _ _ x (Permutation_map toR PS)). reflexivity. }
    clear E PS Es roots.
    pose proof (Interval_wf _ _ _ _ _ E0) as W0. apply Interval_fin in E0. destruct E0 as (_ & Ei0).
    apply mids_ok in E1. destruct E1 as (Len & Lt & ND & P1 & P2 & P3 & P4).
    assert (S0 : forall y, strictly y i0 <-> y < toR z) by (intros y; rewrite Ei0; unfold strictly; simpl; tauto).
    set (L := combine (i0 :: jj) (nsub z nhalf :: probes z zs)) in *.
    set (rs := map toR (z :: zs)) in *.
    assert (Q1 : forall i p, In (i, p) L -> strictly (toR p) i /\ wf_iv i /\
       (forall a, iv_a i = Fin a -> In (toR a) rs) /\ (forall a, iv_b i = Fin a -> In (toR a) rs) /\
       (forall y, fm (FNum y) (PB (BInt i)) -> strictly y i \/ (strict = false /\ In y rs)) /\
       (strict = false -> forall a, iv_a i = Fin a \/ iv_b i = Fin a -> fm (FNum (toR a)) (PB (BInt i))) /\
       (forall r, In r rs -> ~ strictly r i)).
    { assert (Ends : forall i, wf_iv (N:=N) i -> (forall a, iv_a i = Fin a -> In (toR a) rs) ->
        (forall a, iv_b i = Fin a -> In (toR a) rs) ->
        (iv_lo i = strict \/ iv_a i = NInf) -> (iv_ro i = strict \/ iv_b i = PInf) ->
        (forall y, fm (FNum y) (PB (BInt i)) -> strictly y i \/ (strict = false /\ In y rs)) /\
        (strict = false -> forall a, iv_a i = Fin a \/ iv_b i = Fin a -> fm (FNum (toR a)) (PB (BInt i)))).
      { intros i W A B Fl Fr. split.
        - intros y Hy. apply iv_strictly in Hy; auto.
          destruct Hy as [Hy|[(a & A1 & A2 & A3)|(a & A1 & A2 & A3)]]; [auto|right..].
          + destruct Fl as [Fl|Fl]; [|congruence]. split; [congruence|]. rewrite <- A2. auto.
          + destruct Fr as [Fr|Fr]; [|congruence]. split; [congruence|]. rewrite <- A2. auto.
        - intros -> a Ha. apply iv_fm. destruct W as (W1 & _). destruct i as [c d lo ro]; simpl in *.
          destruct Ha as [-> | ->]; simpl in *.
          + destruct Fl as [->|Fl]; [|discriminate]. split; [lra|]. destruct d; simpl in *; auto.
            destruct ro; lra.
          + destruct Fr as [->|Fr]; [|discriminate]. split; [|lra]. destruct c; simpl in *; auto.
            destruct lo; lra. }
      intros i p Hi. unfold L in Hi. cbn [combine] in Hi. destruct Hi as [[= <- <-]|Hi].
      - assert (A : forall a, iv_a i0 = Fin a -> In (toR a) rs) by (intros a; rewrite Ei0; discriminate).
        assert (B : forall a, iv_b i0 = Fin a -> In (toR a) rs).
        { intros a. rewrite Ei0. simpl. intros [= <-]. left. reflexivity. }
        destruct (Ends i0 W0 A B) as (C & D).
        { right. now rewrite Ei0. } { left. rewrite Ei0. simpl. apply orb_false_r. }
        ands; auto.
        + rewrite S0, nsub_ok, nhalf_ok. lra.
        + intros r Hr. rewrite S0. apply in_map_iff in Hr. destruct Hr as (y & <- & [<-|Hy]); [lra|].
          apply Lt in Hy. lra.
      - destruct (P1 _ _ Hi) as (A1 & A2 & A3 & (a & A4 & A5) & A6 & A7 & A8 & A9).
        assert (A : forall a, iv_a i = Fin a -> In (toR a) rs).
        { intros c Hc. rewrite A4 in Hc. injection Hc as <-. now apply in_map. }
        assert (B : forall a, iv_b i = Fin a -> In (toR a) rs).
        { intros c Hc. destruct A6 as [A6|(d & A6 & A6')]; [congruence|]. rewrite A6 in Hc. injection Hc as <-.
          right. now apply in_map. }
        destruct (Ends i A2 A B) as (C & D); auto. ands; auto.
        intros r Hr. apply in_map_iff in Hr. destruct Hr as (y & <- & Hy). auto. }
    assert (Q2 : forall y, ~ In y rs -> exists i p, In (i, p) L /\ strictly y i).
    { intros y Hy. destruct (Rtotal_order y (toR z)) as [?|[->|?]].
      - exists i0, (nsub z nhalf). rewrite S0. split; auto. now left.
      - exfalso. apply Hy. now left.
      - destruct (P2 y) as (i & p & Hi & Hs); auto; [intros Hn; apply Hy; now right|].
        exists i, p. split; auto. now right. }
    assert (Q3 : forall y, In y rs -> exists r i p j q, toR r = y /\ In (i, p) L /\ In (j, q) L /\
      iv_b i = Fin r /\ iv_a j = Fin r).
    { intros y Hy. apply in_map_iff in Hy. destruct Hy as (r & <- & Hr).
      destruct (P3 r Hr) as (j & q & Hj & Ej). exists r.
      destruct Hr as [<-|Hr].
      - exists i0, (nsub z nhalf), j, q. ands; auto; [now left|now right|now rewrite Ei0].
      - destruct (P4 r Hr) as (i & p & Hi & Ei). exists i, p, j, q. ands; auto; now right. }
    clearbody L. clear P1 P2 P3 P4 S0 Ei0 W0 Len Lt i0 jj.
    (* inside one interval the sign is constant *)
    assert (Same : forall i p y, In (i, p) L -> strictly y i -> (f (toR p) < 0 <-> f y < 0)).
    { intros i p y Hi Hy. destruct (Q1 _ _ Hi) as (A & _ & A1 & A2 & _ & _ & A3).
      apply (sign_same f rs RO). intros r Hr. apply A3 in Hr.
      unfold strictly in *. destruct i as [a b0 lo ro]; simpl in *.
      destruct a as [|a|], b0 as [|c|]; simpl in *; try tauto.
      - destruct (Rtotal_order r (toR c)) as [?|[?|?]]; [exfalso; apply Hr; tauto|left; lra|left; lra].
      - destruct (Rle_dec r (toR a)); [right; lra|]. destruct (Rle_dec (toR c) r); [left; lra|].
        exfalso. apply Hr. lra.
      - destruct (Rle_dec r (toR a)); [right; lra|]. exfalso. apply Hr. split; [lra|auto]. }
    set (keep := filter (fun p => nltb (peval cs (snd p)) b) L) in *.
    assert (K : forall i p, In (i, p) keep <-> In (i, p) L /\ f (toR p) < 0).
    { intros i p. unfold keep. rewrite filter_In. cbn [snd]. rewrite nltb_ok, peval_ok. unfold f.
      split; intros (A & B); split; auto; lra. }
    clearbody keep.
    assert (Wk : Forall wf (map (fun p => PB (BInt (fst p))) keep)).
    { apply Forall_forall. intros t Ht. apply in_map_iff in Ht. destruct Ht as ((i & p) & <- & Hp).
      apply K in Hp. destruct (Q1 i p) as (_ & W & _); [tauto|]. exact W. }
    apply make_union_f in H; auto. destruct H as (Ws & Ms & Rs & Ss). ands; auto.
    - apply Rs. apply Forall_forall. intros t Ht. apply in_map_iff in Ht. destruct Ht as (p & <- & _). exact I.
    - intros x Hx. apply Ss in Hx. destruct Hx as (t & Ht & Hx). apply in_map_iff in Ht.
      destruct Ht as ((i & p) & <- & Hp). apply K in Hp. destruct (Q1 i p) as (_ & W & _); [tauto|].
      eapply iv_inffree; eauto.
    - intros x. rewrite Ms. unfold sat. split.
      + intros (t & Ht & Hx). apply in_map_iff in Ht. destruct Ht as ((i & p) & <- & Hp). cbn [fst] in Hx.
        apply K in Hp. destruct Hp as (Hp & Neg). destruct (Q1 i p Hp) as (_ & _ & _ & _ & C & _ & _).
        apply C in Hx. destruct Hx as [Hx|(Hst & Hx)].
        * apply (Same _ _ _ Hp) in Hx. apply Hx in Neg. unfold f in Neg. destruct strict; lra.
        * rewrite Hst. apply (roots_zero f rs RO) in Hx. unfold f in Hx. lra.
      + intros Hx. destruct (classic (In x rs)) as [Hr|Hr].
        * pose proof (proj2 (roots_zero f rs RO x) Hr) as Z. unfold f in Z.
          destruct strict; [lra|]. destruct (Q3 x Hr) as (r & i & p & j & q & <- & Hi & Hj & Ei & Ej).
          destruct (Q1 _ _ Hi) as (A1 & A2 & A3 & A4 & A5 & A6 & A7).
          destruct (Q1 _ _ Hj) as (B1 & B2 & B3 & B4 & B5 & B6 & B7).
          assert (Pos : toR p < toR r < toR q).
          { destruct A1 as (_ & A1), B1 as (B1 & _). rewrite Ei in A1. rewrite Ej in B1. simpl in *. lra. }
          destruct (sign_change f rs RO (toR r) (toR p) (toR q) ND Hr Pos) as [Neg|Neg].
          { intros s0 Hs0 Ne. specialize (A7 _ Hs0). specialize (B7 _ Hs0).
            destruct A1 as (A1 & _), B1 as (_ & B1).
            unfold strictly in A7, B7. rewrite Ei in A7. rewrite Ej in B7. simpl in A7, B7.
            destruct (Rlt_dec s0 (toR r)) as [Hl|Hl].
            - right. destruct (iv_a i) as [|a|]; simpl in *; try tauto.
              assert (s0 <= toR a) by (apply Rnot_lt_le; intros ?; apply A7; tauto). lra.
            - assert (toR r < s0) by lra. left. destruct (iv_b j) as [|a|]; simpl in *; try tauto.
              assert (toR a <= s0) by (apply Rnot_lt_le; intros ?; apply B7; tauto). lra. }
          -- exists (PB (BInt i)). split; [apply in_map_iff; exists (i, p); split; auto; now apply K|].
             apply A6; auto.
          -- exists (PB (BInt j)). split; [apply in_map_iff; exists (j, q); split; auto; now apply K|].
             apply B6; auto.
        * destruct (Q2 x Hr) as (i & p & Hi & Hs).
          exists (PB (BInt i)). split; [|now apply strictly_fm].
          apply in_map_iff; exists (i, p); split; auto. apply K. split; auto.
          apply (Same _ _ _ Hi Hs). unfold f.
          assert (f x <> 0) by (intros Z; apply Hr; now apply (roots_zero f rs RO)). unfold f in *.
          destruct strict; lra.
  Qed.

  (** When it returns: a simple real root suffices. *)
  Lemma mids_total : forall strict l x, (forall y, In y l -> toR x < toR y) ->
    ForallOrdPairs (fun a b => @toR N a < toR b) l -> exists jj, mids strict x l = Ok jj.
  Proof.
    intros strict. induction l as [|z l IH]; intros x H S; cbn [mids].
    - destruct (Interval_ok (Fin x) PInf strict strict) as (i & -> & _); [unfold pos; simpl; pose proof (ord_Fin (toR x)); unfold ord in *; lra|].
      simpl. eauto.
    - destruct (Interval_ok (Fin x) (Fin z) strict strict) as (i & -> & _).
      { apply (ord_lt (Fin (toR x)) (Fin (toR z))). simpl. apply H. now left. }
      inversion S; subst. destruct (IH z) as (jj & ->); auto.
      + intros y Hy. rewrite Forall_forall in H2. auto.
      + simpl. eauto.
  Qed.

  (** ** The solver *)

  Definition holds_below (cs : list num) (b : enum) (strict : bool) (x : R) : Prop :=
    match b with NInf => False | Fin b => sat cs b strict x | PInf => True end.

  Lemma solve_ineq_ok : forall cs b strict s, solve_ineq io po cs b strict = Ok s ->
    wf s /\ real_set s /\ inffree s /\ (forall x, fm (FNum x) s <-> holds_below cs b strict x).
  Proof.
    intros cs b strict s H. unfold solve_ineq in H.
    assert (RealsOk : wf (Reals (N:=N)) /\ real_set (Reals (N:=N)) /\ inffree (Reals (N:=N)) /\
      forall x, fm (FNum x) (Reals (N:=N)) <-> True).
    { assert (W : wf_iv (N:=N) (mkIv NInf PInf true true)) by (unfold wf_iv; simpl; auto).
      ands; simpl; auto; [now apply iv_inffree|]. intros x. change (fm (FNum x) (PB (BInt (N:=N) (mkIv NInf PInf true true))) <-> True). rewrite iv_fm. simpl. tauto. }
    destruct b as [|b|]; cbn [solve_ineq_inf] in H.
    - injection H as <-. ands; simpl; auto; [intros x []|]. intros x. unfold fm. simpl. tauto.
    - destruct (po_ineq po cs b strict) as [t|] eqn:E; [|now apply solve_ineq_num_ok].
      injection H as <-. apply po_ineq_ok in E. destruct E as (A & B & C). ands; auto.
      + intros x Hx. apply C in Hx. destruct Hx as (y & [= ->] & _). eauto.
      + intros x. unfold fm. simpl inj. rewrite C. unfold holds_below, sat. split.
        * intros (y & [= ->] & Hy). exact Hy.
        * intros Hx. exists x. auto.
    - injection H as <-. destruct RealsOk as (A & B & C & D). auto.
  Qed.

  Lemma solve_eq_ok : forall cs b s, solve_eq po cs b = Ok s ->
    wf s /\ real_set s /\ inffree s /\ (forall x, fm (FNum x) s <-> Rpoly cs x = toR b).
  Proof.
    intros cs b s H. unfold solve_eq in H. destruct (po_eq po cs b) as [t|] eqn:E.
    - injection H as <-. apply po_eq_ok in E. destruct E as (A & B & C). ands; auto.
      + intros x Hx. apply C in Hx. destruct Hx as (y & [= ->] & _). eauto.
      + intros x. unfold fm. simpl inj. rewrite C. split.
        * intros (y & [= ->] & Hy). exact Hy.
        * intros Hx. exists x. auto.
    - unfold nroots in H. destruct (po_nroots po cs b) as [roots|] eqn:R; [|discriminate]. cbn [bind] in H.
      apply po_nroots_ok in R. apply FiniteReal_f in H. destruct H as (A & B & _ & C).
      assert (M : map eR (map Fin roots) = map Fin (map (@toR N) roots)) by (rewrite !map_map; reflexivity).
      rewrite M in C. ands; auto.
      + intros x Hx. apply C in Hx. apply in_map_iff in Hx. destruct Hx as (y & <- & _). eauto.
      + intros x. unfold fm. simpl inj. rewrite C. pose proof (roots_zero _ _ R x) as Z. cbv beta in Z.
        split.
        * intros Hx. apply in_map_iff in Hx. destruct Hx as (y & [= ->] & Hy). apply Z in Hy. lra.
        * intros Hx. apply in_map. apply Z. lra.
  Qed.

  (** | drops the infinite points that lie at the open ends of an interval: the range has none *)
  Lemma poly_range_iv : forall cs s a b lo ro, po_range po cs = Some (PRIv a b lo ro) -> poly_range io po cs = Ok s ->
    exists i, Interval_ a b lo ro = Ok i /\ s = PB (BInt i).
  Proof.
    intros cs s a b lo ro E H. unfold poly_range in H. rewrite E in H. inv_bind H. inv_bind H. inv_bind H. exists r. split; auto.
    unfold Interval_ in E0. inv_bind E0. injection E0 as <-. apply passert_Ok in E3.
    assert (Up : is_pinf b = true -> or_real_iv io [PInf] (mkIv a b (lo || is_ninf a) (ro || is_pinf b)) = Ok (PB (BInt (mkIv a b (lo || is_ninf a) (ro || is_pinf b))))).
    { destruct b; try discriminate. intros _. destruct a as [|a|]; try discriminate; unfold or_real_iv; cbn; rewrite ?orb_true_r, ?orb_false_r; reflexivity. }
    assert (Dn : is_ninf a = true -> or_real_iv io [NInf] (mkIv a b (lo || is_ninf a) (ro || is_pinf b)) = Ok (PB (BInt (mkIv a b (lo || is_ninf a) (ro || is_pinf b))))).
    { destruct a; try discriminate. intros _. destruct b as [|b|]; try discriminate; unfold or_real_iv; cbn; rewrite ?orb_true_r, ?orb_false_r; reflexivity. }
    unfold make_union in H. cbn [reduceM foldM] in H. unfold FiniteReal in E1, E2. cbn [is_nil negb passert bind dedup inb existsb] in E1, E2.
    destruct (is_pinf b) eqn:Eb; cbn in E1; injection E1 as <-; destruct (is_ninf a) eqn:Ea; cbn in E2; injection E2 as <-; cbn [por por_b or_bb bind] in H;
      rewrite ?Up in H by reflexivity; cbn [bind por or_bb] in H; rewrite ?Dn in H by reflexivity; cbn [bind] in H; congruence.
  Qed.
  Lemma poly_range_inffree : forall cs s, poly_range io po cs = Ok s -> inffree s.
  Proof.
    intros cs s H. pose proof H as H'. unfold poly_range in H. destruct (po_range po cs) as [[l|a b lo ro]|] eqn:E; [| |discriminate].
    - apply FiniteReal_f in H. destruct H as (_ & _ & _ & C). intros x Hx. apply C in Hx. rewrite map_map in Hx. apply in_map_iff in Hx. destruct Hx as (c & <- & _). cbn. eauto.
    - destruct (poly_range_iv cs s a b lo ro E H') as (i & Ei & ->). apply Interval_wf in Ei. now apply iv_inffree.
  Qed.
  Lemma poly_range_ok : forall cs s, poly_range io po cs = Ok s ->
    wf s /\ real_set s /\ (forall y, fm (FNum y) s <-> exists x, Rpoly cs x = y).
  Proof.
    intros cs s H. unfold poly_range in H. destruct (po_range po cs) as [r|] eqn:E; [|discriminate].
    pose proof (po_range_ok _ po _ _ E) as R. destruct r as [l|a b lo ro].
    - apply FiniteReal_f in H. destruct H as (A & B & _ & C). ands; auto.
      intros y. unfold fm. simpl inj. rewrite C, <- R. simpl. rewrite map_map, in_map_iff. simpl.
      split; [intros (c & [= <-] & Hc); eauto|intros (c & Hc & <-); eauto].
    - inv_bind H. inv_bind H. inv_bind H. rename r into i, r0 into p, r1 into q.
      assert (Inf : forall (c : bool) v p, (if c then FiniteReal (N:=N) [v] else Ok PEmpty) = Ok p ->
        (forall x, v <> Fin x) ->
        wf p /\ real_set p /\ forall y, ~ fm (FNum y) p).
      { clear. intros [] v p H Nv.
        - apply FiniteReal_f in H. destruct H as (A & B & _ & C). ands; auto. intros y. unfold fm. simpl inj.
          rewrite C. simpl. intros [Hy|[]]. destruct v as [|v|]; simpl in *; try discriminate. now apply (Nv v).
        - injection H as <-. ands; simpl; auto. }
      apply Inf in E1; [|discriminate]. apply Inf in E2; [|discriminate].
      pose proof (Interval_wf _ _ _ _ _ E0) as W. apply Interval_fin in E0. destruct E0 as (_ & Ei).
      apply make_union_f in H; [|repeat (constructor; [first [exact W|tauto]|]); constructor]. destruct H as (A & B & C & _). ands; auto.
      + apply C. repeat (constructor; [first [exact I|tauto]|]); constructor.
      + intros y. rewrite B, <- R.
        assert (G : fm (FNum y) (PB (BInt i)) <-> prange_mem y (PRIv a b lo ro)).
        { rewrite Ei. unfold fm. simpl. unfold iv_mem. simpl.
          assert (Fl : forall (lo : bool) a, (if (lo || is_ninf a)%bool then elt (eR (N:=N) a) (Fin y) else ele (eR a) (Fin y)) <->
            (if lo then elt (eR a) (Fin y) else ele (eR a) (Fin y))).
          { intros [] [|c|]; simpl; unfold ele; simpl; intuition discriminate. }
          assert (Fr : forall (lo : bool) a, (if (lo || is_pinf a)%bool then elt (Fin y) (eR (N:=N) a) else ele (Fin y) (eR a)) <->
            (if lo then elt (Fin y) (eR a) else ele (Fin y) (eR a))).
          { intros [] [|c|]; simpl; unfold ele; simpl; intuition discriminate. }
          rewrite Fl, Fr. tauto. }
        rewrite <- G. simpl. split.
        * intros (t & [<-|[<-|[<-|[]]]] & Hy); auto; exfalso; [now apply (proj2 (proj2 E1) y)|now apply (proj2 (proj2 E2) y)].
        * intros Hy. exists (PB (BInt i)). auto.
  Qed.
End Solver.
