(** Induction over transforms, finite membership, and facts about the real functions. *)
From Coq Require Import List Bool String Reals Lra Lia ZArith Classical.
From Verif Require Import Base Num Sets SetSpec SetIv SetProofs SetIvOr SetOr SetOps SetAlg SetBuilt
  Poly Trans TransSpec.
Import ListNotations.
Local Open Scope R_scope.

Lemma All_Forall : forall A (P : A -> Prop) l, All P l <-> Forall P l.
Proof.
  intros A P l. induction l as [|a l IH]; simpl; [split; auto|].
  rewrite IH. split; [intros (H1 & H2); now constructor|]. intros H; inversion H; auto.
Qed.
Lemma All_In : forall A (P : A -> Prop) l x, All P l -> In x l -> P x.
Proof. intros A P l x H. apply All_Forall in H. rewrite Forall_forall in H. auto. Qed.
Lemma All_impl : forall A (P Q : A -> Prop) l, (forall x, In x l -> P x -> Q x) -> All P l -> All Q l.
Proof. intros A P Q l. induction l; simpl; intros H; [auto|]. intros (H1 & H2). split; auto. Qed.

Section Ind.
  Context {N : numsys} (P : tr N -> Prop).
  Context (HId : forall x, P (TId x))
    (HRad : forall t d, P t -> P (TRadical t d))
    (HExp : forall t b, P t -> P (TExp t b))
    (HLog : forall t b, P t -> P (TLog t b))
    (HAbs : forall t, P t -> P (TAbs t))
    (HRecip : forall t, P t -> P (TRecip t))
    (HPoly : forall t cs, P t -> P (TPoly t cs))
    (HPiece : forall l, Forall (fun p => P (fst p) /\ P (snd p)) l -> P (TPiece l))
    (HBasic : forall k t v, P t -> P (EBasic k t v))
    (HOr : forall l, Forall P l -> P (EOr l))
    (HAnd : forall l, Forall P l -> P (EAnd l)).
  Fixpoint tr_ind' (t : tr N) : P t :=
    match t with
    | TId x => HId x
    | TRadical t d => HRad t d (tr_ind' t)
    | TExp t b => HExp t b (tr_ind' t)
    | TLog t b => HLog t b (tr_ind' t)
    | TAbs t => HAbs t (tr_ind' t)
    | TRecip t => HRecip t (tr_ind' t)
    | TPoly t cs => HPoly t cs (tr_ind' t)
    | TPiece l => HPiece l
        ((fix go (l : list (tr N * tr N)) : Forall (fun p => P (fst p) /\ P (snd p)) l :=
            match l with
            | [] => Forall_nil _
            | p :: l => Forall_cons p (conj (tr_ind' (fst p)) (tr_ind' (snd p))) (go l)
            end) l)
    | EBasic k t v => HBasic k t v (tr_ind' t)
    | EOr l => HOr l
        ((fix go (l : list (tr N)) : Forall P l :=
            match l with [] => Forall_nil _ | p :: l => Forall_cons p (tr_ind' p) (go l) end) l)
    | EAnd l => HAnd l
        ((fix go (l : list (tr N)) : Forall P l :=
            match l with [] => Forall_nil _ | p :: l => Forall_cons p (tr_ind' p) (go l) end) l)
    end.
End Ind.

(** ** Truth values *)

Lemma one_zero : one <> zero.
Proof. unfold one, zero. intros H. injection H. lra. Qed.
Lemma truth_one : forall P, truth P = one <-> P.
Proof.
  intros P. unfold truth. destruct (dec P) as [p|p]; [tauto|].
  split; [intros H; symmetry in H; now apply one_zero in H|tauto].
Qed.
Lemma truth_zero : forall P, truth P = zero <-> ~ P.
Proof.
  intros P. unfold truth. destruct (dec P) as [p|p]; [|tauto].
  split; [intros H; now apply one_zero in H|tauto].
Qed.
Lemma kor_one : forall l, kor l = one <-> In one l.
Proof.
  intros l. unfold kor. destruct (dec _) as [p|p]; [tauto|].
  destruct (dec _); split; intros H; try tauto; [symmetry in H; now apply one_zero in H|discriminate].
Qed.
Lemma kand_one : forall l, kand l = one <-> forall o, In o l -> o = one.
Proof.
  intros l. unfold kand. destruct (dec _) as [p|p].
  - split; intros H; [symmetry in H; now apply one_zero in H|]. apply H in p. symmetry in p. now apply one_zero in p.
  - destruct (dec _) as [q|q]; split; intros H; try tauto. discriminate.
Qed.
Lemma kor_zero : forall l, kor l = zero <-> forall o, In o l -> o = zero.
Proof.
  intros l. unfold kor. destruct (dec _) as [p|p].
  - split; intros H; [now apply one_zero in H|]. apply H in p. now apply one_zero in p.
  - destruct (dec _); split; intros H; try tauto. discriminate.
Qed.
Lemma kand_zero : forall l, kand l = zero <-> In zero l.
Proof.
  intros l. unfold kand. destruct (dec _) as [p|p]; [tauto|].
  destruct (dec _); split; intros H; try tauto; [now apply one_zero in H|discriminate].
Qed.

Section Holds.
  Context {N : numsys}.
  Implicit Types w : asg.
  Lemma holds_or : forall (l : list (tr N)) w, holds (EOr l) w <-> exists e, In e l /\ holds e w.
  Proof.
    intros l w. unfold holds. simpl. rewrite kor_one, in_map_iff. split; intros (e & H1 & H2); eauto.
  Qed.
  Lemma holds_and : forall (l : list (tr N)) w, holds (EAnd l) w <-> forall e, In e l -> holds e w.
  Proof.
    intros l w. unfold holds. simpl. rewrite kand_one. split.
    - intros H e He. apply H, in_map_iff. eauto.
    - intros H o Ho. apply in_map_iff in Ho. destruct Ho as (e & <- & He). auto.
  Qed.
  Definition typed (k : ekind) (y : fval) : Prop :=
    match k, y with KNom, FStr _ | (KInt | KReal), FNum _ => True | _, _ => False end.
  Lemma holds_basic : forall k (t : tr N) s w,
    holds (EBasic k t s) w <-> exists y, teval t w = Some y /\ typed k y /\ fm y s.
  Proof.
    intros k t s w. unfold holds. simpl. destruct (teval t w) as [y|].
    - assert (G : typed k y -> (truth (fm y s) = one <-> exists z, Some y = Some z /\ typed k z /\ fm z s)).
      { intros T. rewrite truth_one. split; [eauto|]. intros (z & [= <-] & _ & H). auto. }
      assert (B : ~ typed k y -> ((None : option fval) = one <-> exists z, Some y = Some z /\ typed k z /\ fm z s)).
      { intros T. split; [discriminate|]. intros (z & [= <-] & H & _). tauto. }
      destruct k, y; first [exact (G I)|exact (B (fun x => x))].
    - split; [now destruct k|]. intros (z & E & _). discriminate.
  Qed.
End Holds.

(** ** Finite membership *)

Lemma inj_finite : forall v, finite_val (inj v).
Proof. intros []; exact I. Qed.
#[export] Hint Resolve inj_finite : core.

Section Finite.
  Context {N : numsys} (io : iterorder N).
  Notation enum := (ext (num N)).
  Notation pset := (pset N).


  Lemma pand_f : forall s t r, wf s -> wf t -> pand io s t = Ok r ->
    wf r /\ (forall v, fm v r <-> fm v s /\ fm v t) /\ (real_set s \/ real_set t -> real_set r) /\
    (forall v, mem v r -> mem v s /\ mem v t).
  Proof.
    intros s t r Ws Wt H. apply pand_spec in H; auto. destruct H as (A & B & C & D). ands; auto.
    intros v. unfold fm. split; [apply B|]. intros (H1 & H2). auto.
  Qed.
  Lemma por_f : forall s t r, wf s -> wf t -> por io s t = Ok r ->
    wf r /\ (forall v, fm v r <-> fm v s \/ fm v t) /\ (real_set s -> real_set t -> real_set r) /\
    (forall v, mem v r -> mem v s \/ mem v t).
  Proof.
    intros s t r Ws Wt H. apply por_spec in H; auto. destruct H as (A & B & C & D & E). ands; auto.
    intros v. unfold fm. split; [apply B|]. auto.
  Qed.
  Lemma make_union_f : forall l r, Forall wf l -> make_union io l = Ok r ->
    wf r /\ (forall v, fm v r <-> exists s, In s l /\ fm v s) /\ (Forall real_set l -> real_set r) /\
    (forall v, mem v r -> exists s, In s l /\ mem v s).
  Proof.
    intros l r W H. apply reduce_por_spec in H; auto. destruct H as (A & B & C & D). ands; auto.
    intros v. unfold fm. split; [apply B|]. auto.
  Qed.
  Lemma make_intersection_f : forall l r, Forall wf l -> make_intersection io l = Ok r ->
    wf r /\ (forall v, fm v r <-> forall s, In s l -> fm v s).
  Proof.
    intros [|s l] r W H; [discriminate|]. unfold make_intersection in H. simpl in H.
    inversion W; subst. clear W. revert s r H2 H. induction H3 as [|t l Wt Wl IH]; simpl; intros s r Ws H.
    - injection H as <-. split; auto. intros v. split; [intros Hv t [<-|[]]; auto|auto].
    - inv_bind H. apply pand_f in E; auto. destruct E as (A & B & _). apply IH in H; auto.
      destruct H as (C & D). split; auto. intros v. rewrite D. split.
      + intros G. pose proof (proj1 (B v) (G _ (or_introl eq_refl))) as (G1 & G2).
        intros u [<-|[<-|Hu]]; auto. apply G. now right.
      + intros G u [<-|Hu]; [apply B; split; apply G; simpl; auto|apply G; simpl; auto].
  Qed.
  Lemma pinv_f : forall s r, wf s -> real_set s -> pinv io s = Ok r ->
    wf r /\ real_set r /\ (forall v, fm v r <-> exists x, v = FNum x /\ ~ fm v s) /\ inffree r.
  Proof.
    intros s r W R H. pose proof H as H'. apply pinv_real_spec in H; auto. destruct H as (A & B & C & D).
    ands; auto.
    - intros v. split.
      + intros Hv. destruct v as [x|str]; [eauto using C|].
        exfalso. clear -B Hv. unfold fm in Hv. simpl in Hv. destruct r as [|b|u]; simpl in *; auto.
        * now destruct b.
        * destruct Hv as (b & Hb & Hv). rewrite Forall_forall in B. apply B in Hb. now destruct b.
      + intros (x & -> & Hv). now apply D.
    - (* complements have no infinite member *)
      assert (Iv : forall i, wf_iv (N:=N) i -> forall x, iv_mem x i -> exists r, x = Fin r).
      { intros i Wi x Hx. apply iv_mem_pm in Hx. apply wf_iv_cases in Wi. destruct Wi as (W1 & W2 & W3 & W4 & W5).
        destruct x as [|x|]; eauto; exfalso; unfold pm in Hx; simpl in Hx;
        destruct (iv_lo i), (iv_ro i); try specialize (W4 eq_refl); try specialize (W5 eq_refl); lra. }
      assert (L : forall l, Forall (wf_iv (N:=N)) l -> forall x, mem (RNum x) (PUnion (map BInt l)) -> exists r, x = Fin r).
      { intros l Wl x (b & Hb & Hx). apply in_map_iff in Hb. destruct Hb as (i & <- & Hi).
        rewrite Forall_forall in Wl. now apply (Iv i (Wl _ Hi)). }
      assert (Basic : forall b s, wf_b b -> real_b b -> inv_b io b = Ok s -> inffree s).
      { clear -Iv. intros [vs f|vs|i] s W R H; [now destruct R| |]; simpl in H.
        - unfold inv_real in H. destruct (sort eleb vs) as [|x l]; [discriminate|]. inv_bind H. inv_bind H.
          assert (G : forall l x g, gaps (N:=N) x l = Ok g -> Forall wf_iv g).
          { clear. induction l as [|y l IH]; simpl; intros x g H; inv_bind H.
            - injection H as <-. constructor; [|constructor]. now apply Interval_wf in E.
            - inv_bind H. injection H as <-. constructor; [now apply Interval_wf in E|eauto]. }
          apply Interval_wf in E. apply G in E0. unfold Union_ in H. inv_bind H. inv_bind H. inv_bind H. inv_bind H. inv_bind H.
          injection H as <-. intros y (b & [<-|Hb] & Hy); [now apply (Iv r)|].
          apply in_flat_map in Hb. destruct Hb as (q & Hq & Hb).
          apply in_map_iff in Hq. destruct Hq as (i & <- & Hi). destruct Hb as [<-|[]].
          apply (Iv i); auto. rewrite Forall_forall in E0. auto.
        - unfold inv_iv in H. intros x Hx.
          destruct (is_ninf (iv_a i)), (is_pinf (iv_b i)).
          + injection H as <-. destruct Hx.
          + inv_bind H. injection H as <-. apply Interval_wf in E. eauto.
          + inv_bind H. injection H as <-. apply Interval_wf in E. eauto.
          + inv_bind H. inv_bind H. apply Interval_wf in E. apply Interval_wf in E0.
            unfold Union_ in H. inv_bind H. inv_bind H. inv_bind H. inv_bind H. inv_bind H. injection H as <-.
            simpl in Hx. destruct Hx as (b & [<-|[<-|[]]] & Hx); eauto. }
      destruct s as [|b|u]; simpl in H'.
      + injection H' as <-. intros x Hx. apply (Iv (mkIv NInf PInf true true)); auto.
      + eauto.
      + inv_bind H'. apply mapM_Forall2 in E.
        destruct (u_values_facts io u W) as (V1 & V2 & V3 & V4). specialize (V3 R).
        assert (G : Forall (fun s => wf s /\ inffree s) r0).
        { clear -E V1 V3 Basic. induction E as [|b s l l' Hb _ IH]; [constructor|].
          inversion V1; inversion V3; subst. constructor; [|auto]. split; [|eauto].
          now apply (inv_b_ok io b s) in Hb; [destruct Hb|..]. }
        clear -G H'. destruct r0 as [|s l]; [discriminate|]. simpl in H'. inversion G as [|? ? (Gw & Gi) Gl]; subst. clear G.
        revert s r Gw Gi H'. induction Gl as [|t l (Wt & It) Gl IH]; simpl; intros s r Gw Gi H.
        * injection H as <-. exact Gi.
        * inv_bind H. apply pand_f in E; auto. destruct E as (A & B & C & D).
          apply IH in H; auto. intros x Hx. apply D in Hx. apply Gi. tauto.
  Qed.

  Lemma fm_str_real : forall s str, real_set s -> ~ fm (N:=N) (FStr str) s.
  Proof.
    intros [|b|u] str R; unfold fm; simpl; auto.
    - destruct b; simpl in *; auto.
    - intros (b & Hb & H). simpl in R. rewrite Forall_forall in R. apply R in Hb. now destruct b.
  Qed.

  Lemma FiniteReal_f : forall vs s, FiniteReal (N:=N) vs = Ok s ->
    wf s /\ real_set s /\ (exists ws, s = PB (BReal ws)) /\
    (forall x, mem (RNum x) s <-> In x (map eR vs)).
  Proof.
    intros vs s H. pose proof (FiniteReal_wf vs s H) as W. unfold FiniteReal in H.
    destruct vs as [|x vs]; [discriminate|]. cbn [is_nil negb passert bind] in H.
    pose proof (dedup_num_In (x :: vs)) as Q. set (l := dedup eeqb (x :: vs)) in *. clearbody l.
    injection H as <-. ands; simpl; eauto. intros y. rewrite <- (Q y).
    rewrite in_map_iff. split; intros (z & A & B); eauto.
  Qed.

  Lemma BReal_fm : forall (vs : list enum) x, fm (FNum x) (PB (BReal vs)) <-> In (Fin x) (map eR vs).
  Proof. intros. unfold fm. simpl. rewrite in_map_iff. split; intros (z & A & B); eauto. Qed.

  (** a finite point of an interval, in ordinary arithmetic *)
  Lemma iv_fm : forall i x, fm (FNum x) (PB (BInt i)) <->
    above (iv_a i) (iv_lo i) x /\ below (iv_b (N:=N) i) (iv_ro i) x.
  Proof.
    intros [a b lo ro] x. unfold fm, above, below; simpl. unfold iv_mem; simpl. unfold ele.
    assert (L : forall c (o : bool), (if o then elt (Fin c) (Fin x) else elt (Fin c) (Fin x) \/ Fin c = Fin x) <->
       (if o then c < x else c <= x)).
    { intros c []; simpl; [tauto|]. split; [intros [H|H]; [lra|injection H; lra]|].
      intros H. destruct (Req_dec c x); [right; congruence|left; lra]. }
    assert (R : forall c (o : bool), (if o then elt (Fin x) (Fin c) else elt (Fin x) (Fin c) \/ Fin x = Fin c) <->
       (if o then x < c else x <= c)).
    { intros c []; simpl; [tauto|]. split; [intros [H|H]; [lra|injection H; lra]|].
      intros H. destruct (Req_dec c x); [right; congruence|left; lra]. }
    assert (AC : forall A B C D : Prop, (A <-> C) -> (B <-> D) -> (A /\ B <-> C /\ D)) by tauto.
    apply AC.
    - destruct a as [|c|]; simpl; [destruct lo; tauto|apply (L (toR c))|destruct lo; simpl; intuition discriminate].
    - destruct b as [|c|]; simpl; [destruct ro; simpl; intuition discriminate|apply (R (toR c))|destruct ro; tauto].
  Qed.
End Finite.
