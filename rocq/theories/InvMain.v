(** The main induction: invert is exact on every well-formed transform, and on every event
    at the value 1. *)
From Coq Require Import List Bool String Reals Lra Lia ZArith Classical.
From Verif Require Import Base Num Sets SetSpec SetIv SetProofs SetIvOr SetOr SetOps SetAlg SetBuilt
  Poly Trans TransSpec TransFacts PolyProofs InvProofs.
Import ListNotations.
Local Open Scope R_scope.

Lemma in_sunions : forall (l : list (list string)) x, In x (sunions l) <-> exists m, In m l /\ In x m.
Proof.
  intros l x. unfold sunions. now rewrite dedup_string_In, in_concat.
Qed.

Lemma Forall2_strong : forall A B (R S : A -> B -> Prop) l m,
  (forall a b, In a l -> R a b -> S a b) -> Forall2 R l m -> Forall2 S l m.
Proof. induction 2; constructor; [apply H; simpl; auto|]. apply IHForall2. intros. apply H; simpl; auto. Qed.
Lemma Forall2_ex : forall A B (P : A -> Prop) (Q : B -> Prop) l m,
  Forall2 (fun a b => Q b <-> P a) l m -> ((exists b, In b m /\ Q b) <-> exists a, In a l /\ P a).
Proof.
  induction 1 as [|a b l m H F IH]; simpl; [split; intros (x & [] & _)|]. split.
  - intros (x & [<-|Hx] & Hq); [exists a; tauto|]. destruct IH as (IH & _). destruct IH as (y & H1 & H2); eauto.
  - intros (x & [<-|Hx] & Hq); [exists b; tauto|]. destruct IH as (_ & IH). destruct IH as (y & H1 & H2); eauto.
Qed.
Lemma Forall2_all : forall A B (P : A -> Prop) (Q : B -> Prop) l m,
  Forall2 (fun a b => Q b <-> P a) l m -> ((forall b, In b m -> Q b) <-> forall a, In a l -> P a).
Proof.
  induction 1 as [|a b l m H F IH]; simpl; [split; intros _ x []|]. split.
  - intros HH x [<-|Hx]; [apply H; auto|]. apply IH; auto.
  - intros HH x [<-|Hx]; [apply H; auto|]. apply IH; auto.
Qed.
Lemma Forall2_r : forall A B (R : A -> B -> Prop) (Q : B -> Prop) l m,
  (forall a b, R a b -> Q b) -> Forall2 R l m -> Forall Q m.
Proof. induction 2; constructor; eauto. Qed.

Section Main.
  Context {N : numsys} (io : iterorder N) (po : polyoracle N) (fuel : nat).
  Notation enum := (ext (num N)).
  Notation num := (num N).
  Notation tr := (tr N).
  Notation pset := (pset N).
  Notation invert := (invert io po fuel).
  Notation solve := (solve io po fuel).

  Lemma numv_num : forall (t : tr) w s, numv t -> teval t w <> Some (FStr s).
  Proof.
    assert (NO : forall f v s, num_op f v <> Some (FStr s)).
    { intros f [[x|q]|] s; simpl; try discriminate. destruct (f x); discriminate. }
    assert (TR : forall P s, truth P <> Some (FStr s)) by (intros P s; unfold truth; destruct (dec P); discriminate).
    induction t using tr_ind'; intros w s Hn; simpl in Hn |- *; try apply NO; try tauto.
    - induction H as [|p l (Hp & _) H IH]; simpl; [discriminate|]. destruct Hn as (H1 & H2).
      destruct (dec _); [now apply Hp|now apply IH].
    - destruct k, (teval t w) as [[]|]; try discriminate; apply TR.
    - unfold kor. destruct (dec _); [discriminate|]. destruct (dec _); discriminate.
    - unfold kand. destruct (dec _); [discriminate|]. destruct (dec _); discriminate.
  Qed.

  Lemma pick_in : forall l v, pick l = Some v -> exists e, In (Some v, e) l /\ e = one.
  Proof.
    induction l as [|(a, e) l IH]; simpl; intros v H; [discriminate|].
    destruct (dec _); [subst a; eauto|]. destruct (IH v H) as (e' & H1 & H2). eauto.
  Qed.
  Lemma num_num : forall (t : tr) w s, (forall x, In x (symbols t) -> exists r, w x = FNum r) ->
    teval t w <> Some (FStr s).
  Proof.
    induction t using tr_ind'; intros w s Hn; try (apply numv_num; exact I).
    - simpl. destruct (Hn x (or_introl eq_refl)) as (r & ->). discriminate.
    - intros E. apply pick_in in E. destruct E as (e & E & _). apply in_map_iff in E. destruct E as (p & Ep & Hp).
      injection Ep as Ep _. rewrite Forall_forall in H. destruct (H p Hp) as (Hf & _). apply (Hf w s); auto.
      intros x Hx. apply Hn. simpl. apply in_sunions. exists (symbols (fst p)). split; auto. apply in_map_iff. eauto.
  Qed.

  Lemma symbols_some : forall t : tr, good t -> exists x, In x (symbols t).
  Proof.
    assert (L : forall (l : list tr), l <> [] -> Forall (fun t => good t -> exists x, In x (symbols t)) l ->
      All (fun e => good e /\ is_event e = true) l -> exists x, In x (sunions (map symbols l))).
    { intros [|t l] Ne F G; [tauto|]. inversion F; subst. destruct G as ((G & _) & _). destruct (H1 G) as (x & Hx).
      exists x. apply in_sunions. exists (symbols t). split; [now left|auto]. }
    induction t using tr_ind'; simpl; intros G; try tauto; try (now apply L).
    - exists x. auto.
    - destruct G as (Ne & G). destruct l as [|p l]; [tauto|]. inversion H; subst. destruct H2 as (Hp & _).
      destruct G as ((G & _) & _). destruct (Hp G) as (x & Hx).
      exists x. apply in_sunions. exists (symbols (fst p)). split; [now left|auto].
    - apply IHt. destruct k; tauto.
  Qed.

  (** The value of an event is 0 or 1. *)
  Lemma bits_f : wf (bits (N:=N)) /\ real_set (bits (N:=N)) /\ forall x, fm (N:=N) (FNum x) bits <-> x = 0 \/ x = 1.
  Proof.
    ands.
    - simpl. split; [|discriminate]. repeat constructor; simpl; [|tauto].
      intros [H|[]]. injection H as H. rewrite nint0, nint1 in H. lra.
    - exact I.
    - intros x. unfold bits. rewrite BReal_fm. simpl. rewrite nint0, nint1. split.
      + intros [[= <-]|[[= <-]|[]]]; auto.
      + intros [->| ->]; auto.
  Qed.
  Lemma event_bit : forall (e : tr) w v, is_event e = true -> teval e w = Some v -> v = FNum 0 \/ v = FNum 1.
  Proof.
    assert (TR : forall P v, truth P = Some v -> v = FNum 0 \/ v = FNum 1).
    { intros P v. unfold truth, one, zero. destruct (dec P); intros [= <-]; auto. }
    intros e w v He H. destruct e; try discriminate He; simpl in H.
    - destruct k, (teval e w) as [[]|]; try discriminate; eauto.
    - unfold kor, one, zero in H. destruct (dec _); [injection H as <-; auto|]. destruct (dec _); [injection H as <-; auto|discriminate].
    - unfold kand, one, zero in H. destruct (dec _); [injection H as <-; auto|]. destruct (dec _); [injection H as <-; auto|discriminate].
  Qed.


  Lemma range_ok : forall (t : tr) rg, good t -> (realv t \/ is_event t = true) -> range io po t = Ok rg ->
    wf rg /\ real_set rg /\ in_range t rg.
  Proof.
    induction t using tr_ind'; intros rg G R Hr; simpl in Hr.
    - injection Hr as <-. destruct (ExtReals_f (N:=N)) as (A & B & C). ands; auto. intros w z _. apply C.
    - injection Hr as <-. destruct (ExtRealsPos_f (N:=N)) as (A & B & C & _). ands; auto. intros w z H. simpl in H.
      destruct (teval t w) as [[x|]|]; try discriminate. simpl in H. destruct (f_root d x) as [y|] eqn:E; [|discriminate].
      injection H as <-. apply f_root_iff in E. apply C. tauto.
    - injection Hr as <-. destruct (ExtRealsPos_f (N:=N)) as (A & B & C & _). ands; auto. intros w z H. simpl in H.
      destruct (teval t w) as [[x|]|]; try discriminate. simpl in H. injection H as <-. apply C.
      pose proof (Rpower_pos (toR b) x). lra.
    - injection Hr as <-. destruct (ExtReals_f (N:=N)) as (A & B & C). ands; auto. intros w z _. apply C.
    - injection Hr as <-. destruct (ExtRealsPos_f (N:=N)) as (A & B & C & _). ands; auto. intros w z H. simpl in H.
      destruct (teval t w) as [[x|]|]; try discriminate. simpl in H. injection H as <-. apply C. apply Rabs_pos.
    - apply range_recip_f in Hr. destruct Hr as (A & B & _ & C). ands; auto. intros w z H. simpl in H.
      destruct (teval t w) as [[x|]|]; try discriminate. simpl in H. destruct (f_recip x) as [y|] eqn:E; [|discriminate].
      injection H as <-. apply f_recip_iff in E. destruct E as (E & ->). apply C. now apply Rinv_neq_0_compat.
    - apply poly_range_ok in Hr. destruct Hr as (A & B & C). ands; auto. intros w z H. simpl in H.
      destruct (teval t w) as [[x|]|]; try discriminate. simpl in H. injection H as <-. apply C. eauto.
    - inv_bind Hr. apply mapM_Forall2 in E.
      assert (F : Forall2 (fun p s => wf s /\ real_set s /\ in_range (fst p) s) l r).
      { clear -E G H. simpl in G. destruct G as (_ & G). rewrite All_Forall, Forall_forall in G. rewrite Forall_forall in H.
        eapply Forall2_strong; [|exact E]. intros p x Hp Hx. cbv beta in Hx.
        destruct (H p Hp) as (Hp1 & _). destruct (G p Hp) as (G1 & G2 & _). apply Hp1; auto. }
      assert (W : Forall wf r) by (clear -F; induction F as [|? ? ? ? (K & _)]; constructor; auto).
      apply make_union_f in Hr; auto. destruct Hr as (A & B & C & _). ands; auto.
      + apply C. clear -F; induction F as [|? ? ? ? (_ & K & _)]; constructor; auto.
      + intros w z Hz. simpl in Hz. apply pick_in in Hz. destruct Hz as (e & Hz & _).
        apply in_map_iff in Hz. destruct Hz as (p & Ep & Hp). injection Ep as Ez _.
        apply B. clear -F Hp Ez. induction F as [|q s l r (_ & _ & K) F IH]; [destruct Hp|].
        destruct Hp as [->|Hp]; [exists s; split; [now left|now apply (K w)]|].
        destruct (IH Hp) as (s' & H1 & H2). exists s'. split; auto. now right.
    - injection Hr as <-. destruct bits_f as (A & B & C). ands; auto. intros w z H.
      apply event_bit in H; auto. apply C. destruct H as [[= ->]|[= ->]]; auto.
    - injection Hr as <-. destruct bits_f as (A & B & C). ands; auto. intros w z H'.
      apply event_bit in H'; auto. apply C. destruct H' as [[= ->]|[= ->]]; auto.
    - injection Hr as <-. destruct bits_f as (A & B & C). ands; auto. intros w z H'.
      apply event_bit in H'; auto. apply C. destruct H' as [[= ->]|[= ->]]; auto.
  Qed.

  Definition sub1 (s : pset) : Prop := forall v, mem v s -> v = RNum (Fin 1).
  Definition ev_exact (X : string) (t : tr) : Prop :=
    forall b s r, wf s -> sub1 s -> invert t s = Ok r -> exactK (fun _ => True) X b t s r.

  Lemma sub1_inffree : forall s, sub1 s -> inffree s.
  Proof. intros s H x Hx. apply H in Hx. injection Hx as ->. eauto. Qed.
  Lemma closedS_sub1 : closedS sub1.
  Proof. intros s s' H D v Hv. apply H, D, Hv. Qed.

  (** with the dispatch opened on the range of t *)
  Lemma dispatch_range : forall n t fin int s r, dispatch io n (range io po t) fin int s = Ok r ->
    exists rg, range io po t = Ok rg /\ dispatch io n (Ok rg) fin int s = Ok r.
  Proof.
    intros [|n] t fin int s r H; [discriminate|]. destruct (range io po t) as [rg|e] eqn:E.
    - exists rg. auto.
    - discriminate.
  Qed.

  Lemma finv_event_f : forall v y s, wf v -> real_set v -> finv_event io v y = Ok s ->
    mem (RNum (eR y)) (bits (N:=N)) ->
    wf s /\ real_set s /\ (inffree v -> inffree s) /\
    forall z, fm (FNum z) s <->
      exists c, y = Fin c /\ Some (if dec (fm (FNum z) v) then 1 else 0) = Some (toR c).
  Proof.
    intros v y s Wv Rv H M. unfold finv_event in H.
    assert (By : y = Fin (nint 0) \/ True) by auto. clear By.
    destruct (eeqb y (bit true)) eqn:E1.
    - injection H as <-. ands; auto. apply eeqb_eR in E1. destruct y as [|c|]; try discriminate.
      injection E1 as E1. rewrite nint1 in E1. intros z. split.
      + intros Hz. exists c. split; auto. destruct (dec _); [congruence|tauto].
      + intros (c' & [= <-] & [= Hc]). destruct (dec _) as [p|]; auto. lra.
    - destruct (eeqb y (bit false)) eqn:E2.
      + apply pinv_f in H; auto. destruct H as (A & B & C & D). ands; auto.
        apply eeqb_eR in E2. destruct y as [|c|]; try discriminate.
        injection E2 as E2. rewrite nint0 in E2. intros z. rewrite C. split.
        * intros (x & _ & Hz). exists c. split; auto. destruct (dec _); [tauto|congruence].
        * intros (c' & [= <-] & [= Hc]). destruct (dec _) as [p|p]; [lra|eauto].
      + exfalso. destruct y as [|c|]; simpl in M; [destruct M as (x & [<-|[<-|[]]] & M); discriminate| |
          destruct M as (x & [<-|[<-|[]]] & M); discriminate].
        destruct M as (x & [<-|[<-|[]]] & M).
        * assert (T : eeqb (Fin c) (bit (N:=N) false) = true) by (apply eeqb_eR; auto). congruence.
        * assert (T : eeqb (Fin c) (bit (N:=N) true) = true) by (apply eeqb_eR; auto). congruence.
  Qed.

  Lemma only_in : forall X (l : list tr) t, only X (EOr l) -> In t l -> only X t.
  Proof. intros X l t H Ht x Hx. apply H. simpl. apply in_sunions. exists (symbols t). split; [now apply in_map|auto]. Qed.
  Lemma only_piece : forall X (l : list (tr * tr)) p, only X (TPiece l) -> In p l -> only X (fst p).
  Proof.
    intros X l p H Hp x Hx. apply H. simpl. apply in_sunions. exists (symbols (fst p)).
    split; [|auto]. apply in_map_iff. eauto.
  Qed.

  Lemma hasinf_inffree : forall s : pset, wf s -> (s = PEmpty \/ (exists vs, s = PB (BReal vs)) \/ (exists i, s = PB (BInt i))) ->
    hasinf s = false -> inffree s.
  Proof.
    intros s W [->|[(vs & ->)|(i & ->)]] H.
    - intros x [].
    - simpl in H. intros x (y & Hy & <-). destruct y as [|c|]; [|simpl; eauto|];
      (assert (T : existsb is_inf vs = true) by (apply existsb_exists; eexists; split; eauto; reflexivity); congruence).
    - now apply iv_inffree.
  Qed.

  Lemma solve_event : forall X e b r, only X e -> ev_exact X e ->
    is_event e = true -> good e ->
    (match id_values e with Some v => Ok v | None => invert e (PB (BReal [bit true])) end) = Ok r ->
    wf r /\ forall w, regular b e w -> (fm (w X) r <-> holds e w).
  Proof.
    intros X e b r On Ev Is G H. destruct (id_values e) as [v|] eqn:Ei.
    - injection H as <-. destruct e as [| | | | | | | |k u v'| |]; try discriminate. destruct u as [x| | | | | | | | | |]; try discriminate.
      injection Ei as ->. assert (x = X) by (apply On; simpl; auto). subst x.
      assert (W : wf v) by (destruct k; simpl in G; tauto). split; auto.
      intros w _. rewrite holds_basic. simpl. split.
      + intros Hv. exists (w X). ands; auto. destruct k; simpl in G |- *; destruct (w X); simpl; auto.
        * destruct G as (_ & _ & _ & i & ->). exact Hv.
        * destruct G as (_ & _ & _ & [->|(vs & ->)]); exact Hv.
        * destruct G as (_ & _ & _ & [->|G]); [exact Hv|]. destruct v as [|[]|]; simpl in G; try tauto; exact Hv.
      + intros (y & [= <-] & _ & Hy). auto.
    - assert (W : wf (PB (BReal [bit (N:=N) true]))) by apply BReal1.
      assert (M : forall x, mem (RNum x) (PB (BReal [bit (N:=N) true])) <-> x = eR (bit (N:=N) true)) by apply BReal1.
      destruct (Ev b _ r W) with (2 := H) as (A & _ & C).
      { intros v Hv. destruct v as [x|str]; [|destruct Hv].
        apply M in Hv. subst x. simpl. now rewrite nint1. }
      split; auto. intros w Rw. rewrite (C w Rw). unfold holds, one. split.
      + intros (z & Z1 & Z2). unfold fm in Z2. simpl inj in Z2. apply M in Z2. simpl in Z2. rewrite nint1 in Z2.
        injection Z2 as ->. auto.
      + intros Hh. exists 1. split; auto. unfold fm. simpl inj. apply M. simpl. now rewrite nint1.
  Qed.

  Lemma pick_disjoint : forall (l : list (tr * tr)) w v,
    ForallOrdPairs (fun p q => ~ (holds (snd p) w /\ holds (snd q) w)) l ->
    (pick (map (fun p => (teval (fst p) w, teval (snd p) w)) l) = Some v <->
     exists p, In p l /\ teval (fst p) w = Some v /\ holds (snd p) w).
  Proof.
    induction 1 as [|p l Hp D IH]; simpl.
    - split; [discriminate|]. intros (p & [] & _).
    - destruct (dec _) as [H|H].
      + split.
        * intros E. exists p. ands; auto.
        * intros (q & [<-|Hq] & E & Hh); auto. exfalso. rewrite Forall_forall in Hp. apply (Hp q Hq). split; auto.
      + rewrite IH. split.
        * intros (q & Hq & E & Hh). exists q. auto.
        * intros (q & [<-|Hq] & E & Hh); [tauto|]. exists q. auto.
  Qed.

  Theorem invert_ok : forall X (t : tr), good t -> only X t ->
    (realv t -> inv_exact io po fuel X t) /\ (is_event t = true -> ev_exact X t).
  Proof.
    intros X. induction t using tr_ind'; intros G On.
    - (* TId *)
      split; [|discriminate]. intros _ b s r Ws Is H. simpl in H. revert r H. generalize fuel. intros n r H.
      assert (x = X) by (apply On; simpl; auto). subst x.
      destruct (ExtReals_f (N:=N)) as (A & B & C).
      assert (E : forall c (r : pset), real_set r -> wf r -> InvProofs.exact X c (TId X) r r).
      { intros c q Rq Wq. unfold InvProofs.exact, exactK. ands; auto. intros w _. simpl. split.
        - intros Hq. destruct (w X) as [z|str]; [eauto|]. now apply fm_str_real in Hq.
        - intros (z & [= ->] & Hz). auto. }
      eapply (dispatch_exact io real_set (fun s => b = false -> inffree s)); try exact H; eauto using closedU_real, closedS_inf.
      + intros w z _. apply C.
      + intros vs q W _ _ [= <-]. apply E; simpl; auto.
      + intros i q W _ _ [= <-]. apply E; simpl; auto.
    - (* TRadical *)
      split; [|discriminate]. intros _ b s r Ws Is H. simpl in H.
      pose proof (range_ok (TRadical t d) _ G (or_introl I) eq_refl) as (A & B & C). simpl in G. destruct G as (G & R).
      destruct (IHt G On) as (IH & _). specialize (IH R).
      eapply (op_exact io po fuel X (f_root d) (finv_radical io d) (inj_interval (finv_radical io d)) b b _ t _ (fun _ => False)); try exact H; eauto.
      + intros y q Hq M. destruct (radical_fin io d y q Hq M) as (S1 & S2 & S3 & S4). ands; auto.
      + intros i zs Wi Di Hi. exact (radical_int io d i zs Wi Di Hi).
    - (* TExp *)
      split; [|discriminate]. intros _ c s r Ws Is H. simpl in H.
      pose proof (range_ok (TExp t b) _ G (or_introl I) eq_refl) as (A & B & C). simpl in G. destruct G as (G & R & Hb).
      destruct (IHt G On) as (IH & _). specialize (IH R).
      eapply (op_exact io po fuel X (f_exp (toR b)) (finv_exp io b) (inj_interval (finv_exp io b)) c true _ t _ (fun _ => False)); try exact H; eauto.
      + intros y q Hq M. destruct (exp_fin io b y q Hb Hq M) as (S1 & S2 & S3). ands; auto. discriminate.
      + intros i zs Wi Di Hi. exact (exp_int io b i zs Hb Wi Di Hi).
    - (* TLog *)
      split; [|discriminate]. intros _ c s r Ws Is H. simpl in H.
      pose proof (range_ok (TLog t b) _ G (or_introl I) eq_refl) as (A & B & C). simpl in G. destruct G as (G & R & Hb).
      destruct (IHt G On) as (IH & _). specialize (IH R).
      eapply (op_exact io po fuel X (f_log (toR b)) (finv_log io b) (inj_interval (finv_log io b)) c c _ t _ (fun z => z = 0)); try exact H; eauto.
      + intros w (Rw & _). exact Rw.
      + intros w z (_ & Rw) Ec Ez ->. apply Rw; auto.
      + intros y q Hq M. destruct (log_fin io b y q Hb Hq) as (S1 & S2 & S3 & S4). ands; auto.
      + intros i zs Wi Di Hi. exact (log_int io b i zs Hb Wi Hi).
    - (* TAbs *)
      split; [|discriminate]. intros _ b s r Ws Is H. simpl in H.
      pose proof (range_ok (TAbs t) _ G (or_introl I) eq_refl) as (A & B & C). simpl in G. destruct G as (G & R).
      destruct (IHt G On) as (IH & _). specialize (IH R).
      eapply (op_exact io po fuel X (fun x => Some (Rabs x)) (finv_abs io) (abs_interval io) b b _ t _ (fun _ => False)); try exact H; eauto.
      + intros y q Hq M. destruct (abs_fin io y q Hq M) as (S1 & S2 & S3 & S4). ands; auto.
      + intros i zs Wi Di Hi. exact (abs_int io i zs Wi Di Hi).
    - (* TRecip *)
      split; [|discriminate]. intros _ b s r Ws Is H. simpl in H.
      apply (dispatch_range fuel (TRecip t)) in H. destruct H as (rg & Hr & H).
      pose proof (range_ok (TRecip t) _ G (or_introl I) Hr) as (A & B & C). simpl in G. destruct G as (G & R).
      destruct (IHt G On) as (IH & _). specialize (IH R). simpl in Hr.
      eapply (op_exact io po fuel X f_recip (finv_recip io) (recip_interval (N:=N)) b false _ t _ (fun _ => False)); try exact H; eauto.
      + intros y q Hq M. destruct (recip_fin io rg y q Hr Hq M) as (S1 & S2 & S3 & S4). ands; auto.
      + intros i zs Wi Di Hi. exact (recip_int io rg i zs Hr Wi Di Hi).
    - (* TPoly *)
      split; [|discriminate]. intros _ b s r Ws Is H. simpl in H.
      apply (dispatch_range fuel (TPoly t cs)) in H. destruct H as (rg & Hr & H).
      pose proof (range_ok (TPoly t cs) _ G (or_introl I) Hr) as (A & B & C). simpl in G. destruct G as (G & R).
      destruct (IHt G On) as (IH & _). specialize (IH R). simpl in Hr.
      eapply (op_exact io po fuel X (fun x => Some (Rpoly cs x)) (finv_poly io po cs) (poly_interval io po cs) b false _ t _ (fun _ => False)); try exact H; eauto.
      + intros y q Hq M. destruct (poly_fin io po cs rg y q Hr Hq M) as (S1 & S2 & S3 & S4). ands; auto.
      + intros i zs Wi Di Hi. exact (poly_int io po cs i zs Wi Hi).
    - (* TPiece *)
      split; [|discriminate]. intros _ b s r Ws Is Hi. cbn [Trans.invert] in Hi.
      apply (dispatch_range fuel (TPiece l)) in Hi. destruct Hi as (rg & Hr & Hi).
      pose proof (range_ok (TPiece l) _ G (or_introl I) Hr) as (A & B & C).
      pose proof G as G'. simpl in G'. destruct G' as (_ & G'). rewrite All_Forall, Forall_forall in G'.
      rewrite Forall_forall in H.
      assert (Go : forall zs r, wf zs -> (b = false -> inffree zs) ->
        (do xs <- mapM (fun p => do i <- invert (fst p) zs;
                                 do d <- (match id_values (snd p) with
                                          | Some v => Ok v
                                          | None => invert (snd p) (PB (BReal [bit true]))
                                          end);
                                 pand io i d) l; make_union io xs) = Ok r ->
        InvProofs.exact X b (TPiece l) zs r).
      { clear Hi r. intros zs r Wz Iz Hg. inv_bind Hg. apply mapM_Forall2 in E. rename r0 into xs.
        assert (F : Forall2 (fun p x => wf x /\ real_set x /\ forall w, regular b (TPiece l) w ->
          (fm (w X) x <-> (exists z, teval (fst p) w = Some (FNum z) /\ fm (FNum z) zs) /\ holds (snd p) w)) l xs).
        { eapply Forall2_strong; [|exact E]. intros p x Hp Hx. cbv beta in Hx.
          destruct (H p Hp) as (Hp1 & Hp2). destruct (G' p Hp) as (G1 & R1 & G2 & Ie & Inc).
          inv_bind Hx. inv_bind Hx.
          assert (On2 : only X (snd p)) by (intros y Hy; apply On, Inc, Hy).
          destruct (Hp1 G1 (only_piece X l p On Hp)) as (Ex & _). specialize (Ex R1 b zs r0 Wz Iz E0).
          destruct Ex as (X1 & X2 & X3).
          destruct (Hp2 G2 On2) as (_ & Ev). specialize (Ev Ie).
          apply (solve_event X (snd p) b) in E1; auto. destruct E1 as (Y1 & Y2).
          apply pand_f in Hx; auto. destruct Hx as (P1 & P2 & P3 & _). ands; auto.
          intros w Rw. simpl in Rw. destruct Rw as (Rw & _). apply All_In with (x := p) in Rw; auto.
          rewrite P2, X3, Y2; tauto. }
        assert (Wx : Forall wf xs) by (clear -F; induction F as [|? ? ? ? (K & _)]; constructor; auto).
        apply make_union_f in Hg; auto. destruct Hg as (U1 & U2 & U3 & _). unfold InvProofs.exact, exactK. ands; auto.
        - apply U3. clear -F; induction F as [|? ? ? ? (_ & K & _)]; constructor; auto.
        - intros w Rw. rewrite U2.
          assert (Eq : (exists x, In x xs /\ fm (w X) x) <->
            exists p, In p l /\ (exists z, teval (fst p) w = Some (FNum z) /\ fm (FNum z) zs) /\ holds (snd p) w).
          { apply (Forall2_ex _ _ (fun p => (exists z, teval (fst p) w = Some (FNum z) /\ fm (FNum z) zs) /\ holds (snd p) w) (fun x => fm (w X) x)).
            eapply Forall2_strong; [|exact F]. intros p x _ (_ & _ & K). now apply K. }
          rewrite Eq. simpl. destruct Rw as (_ & Dj). clear -Dj. split.
          + intros (p & Hp & (z & Z1 & Z2) & Hh). exists z. split; auto. apply pick_disjoint; eauto.
          + intros (z & Z1 & Z2). apply pick_disjoint in Z1; auto. destruct Z1 as (p & Hp & E & Hh).
            exists p. ands; eauto. }
      eapply (dispatch_exact io real_set (fun s => b = false -> inffree s)); try exact Hi; eauto using closedU_real, closedS_inf.
      + intros vs q Wq Iq _ Hq. now apply (Go (PB (BReal vs))).
      + intros i q Wq Iq _ Hq. now apply (Go (PB (BInt i))).
    - (* EBasic *)
      assert (Real : k <> KNom -> inv_exact io po fuel X (EBasic k t v)).
      { intros Kn b s r Ws Is H.
        assert (H' : dispatch io fuel (Ok bits) (fun vs => do zs <- finv_all io (finv_event io v) vs; invert t zs)
                      (fun i => do zs <- (fun _ => Raise NotImplementedError) i; invert t zs) s = Ok r).
        { simpl in H. destruct k; [exact H|exact H|tauto]. }
        clear H. rename H' into H.
        assert (Gd : good t /\ realv t /\ wf v /\ real_set v /\ (hasinf v = false -> inffree v)).
        { destruct k; [| |tauto]; simpl in G.
          - destruct G as (G1 & G2 & G3 & i & ->). ands; simpl; auto. intros _. now apply iv_inffree.
          - destruct G as (G1 & G2 & G3 & G4). ands; auto.
            + destruct G4 as [->|(vs & ->)]; exact I.
            + apply hasinf_inffree; tauto. }
        destruct Gd as (G1 & G2 & Wv & Rv & Iv). destruct (IHt G1 On) as (IH & _). specialize (IH G2).
        destruct bits_f as (A & B & C).
        eapply (op_exact io po fuel X (fun z => Some (if dec (fm (FNum z) v) then 1 else 0)) (finv_event io v)
          (fun _ => Raise NotImplementedError) b (hasinf v) _ t bits (fun _ => False)); try exact H; eauto.
        - intros w z Hz. apply event_bit in Hz; auto. apply C. destruct Hz as [[= ->]|[= ->]]; auto.
        - intros w. simpl. destruct k; [| |tauto]; destruct (teval t w) as [[x|]|]; simpl; auto;
          unfold truth; destruct (dec _); reflexivity.
        - intros w (Rw & _). exact Rw.
        - intros y q Hq M. destruct (finv_event_f v y q Wv Rv Hq M) as (S1 & S2 & S3 & S4). ands; auto.
        - intros i zs _ _ Hf. discriminate. }
      split.
      + intros R. apply Real. destruct k; [discriminate|discriminate|destruct R].
      + intros _ b s r Ws Is H. destruct k.
        * destruct (Real ltac:(discriminate) b s r Ws (fun _ => sub1_inffree s Is) H) as (A & _ & C). unfold exactK. auto.
        * destruct (Real ltac:(discriminate) b s r Ws (fun _ => sub1_inffree s Is) H) as (A & _ & C). unfold exactK. auto.
        * clear Real IHt. simpl in H. destruct bits_f as (A & B & C). simpl in G. destruct G as (Gt & _ & Wv & Nv).
          eapply (dispatch_exact io (fun _ => True) sub1); try exact H; eauto using closedU_any, closedS_sub1.
          -- intros w z Hz. apply event_bit in Hz; auto. apply C. destruct Hz as [[= ->]|[= ->]]; auto.
          -- clear H s Ws Is r. intros vs r Wvs S1 _ H.
             assert (V1 : forall x, In x vs -> eR x = Fin 1).
             { intros x Hx. assert (M : mem (RNum (eR x)) (PB (BReal vs))) by (exists x; auto).
               apply S1 in M. now injection M. }
             assert (M1 : fm (FNum 1) (PB (BReal vs))).
             { destruct vs as [|x vs]; [destruct Wvs as (_ & K); now destruct K|]. exists x. split; [now left|].
               simpl. apply V1. now left. }
             assert (Eq : forall w, (exists z, teval (EBasic KNom t v) w = Some (FNum z) /\ fm (FNum z) (PB (BReal vs))) <->
               exists str, teval t w = Some (FStr str) /\ fm (FStr str) v).
             { intros w. split.
               - intros (z & Z1 & Z2). apply S1 in Z2. injection Z2 as ->.
                 assert (Hh : holds (EBasic KNom t v) w) by exact Z1. apply holds_basic in Hh.
                 destruct Hh as ([|str] & H1 & [] & H2). eauto.
               - intros (str & H1 & H2). exists 1. split; auto. change (holds (EBasic KNom t v) w). apply holds_basic.
                 exists (FStr str). ands; simpl; auto. }
             unfold exactK. unfold invert_nominal in H.
             destruct (set_eqb eeqb vs [bit false]) eqn:E0.
             { exfalso. unfold set_eqb in E0. apply andb_true_iff in E0. destruct E0 as (_ & E0).
               simpl in E0. rewrite andb_true_r in E0. apply existsb_exists in E0. destruct E0 as (x & Hx & E0).
               apply eeqb_eR in E0. rewrite (V1 x Hx) in E0. simpl in E0. rewrite nint0 in E0. injection E0. lra. }
             destruct (set_eqb eeqb vs [bit true]) eqn:E1.
             ++ unfold finv_nominal in H. rewrite eeqb_refl in H.
                destruct (is_empty v) eqn:Ev.
                { injection H as <-. destruct v; try discriminate. ands; try exact I. intros w _. rewrite Eq.
                  split; [intros []|intros (str & _ & [])]. }
                destruct (is_id t) eqn:Et.
                { simpl in H. injection H as <-. destruct t as [x| | | | | | | | | |]; try discriminate.
                  assert (x = X) by (apply On; simpl; auto). subst x. ands; auto.
                  intros w _. rewrite Eq. simpl. split.
                  - intros Hv. destruct (w X) as [z|str]; [|eauto]. exfalso.
                    destruct Nv as [->|Nv]; [exact Hv|]. destruct v as [|[]|]; simpl in Nv; try tauto; exact Hv.
                  - intros (str & [= ->] & Hv). auto. }
                simpl in H. injection H as <-.
                assert (NS : forall w, regular b (EBasic KNom t v) w -> forall str, teval t w <> Some (FStr str)).
                { intros w (_ & Rw) str. destruct (Rw eq_refl) as [Rw'|[(_ & Rw')|Rw']]; [congruence|now apply numv_num|now apply num_num]. }
                ands; try exact I; [destruct (complemented v); [split; [constructor|now right]|exact I]|].
                intros w Rw. rewrite Eq. specialize (NS w Rw). destruct Rw as (_ & Rw). split.
                --- intros Hc. exfalso. destruct (Rw eq_refl) as [Rw'|[(Rw' & _)|Rw']]; [congruence| |].
                    +++ rewrite Rw' in Hc. exact Hc.
                    +++ assert (Hw : exists r, w X = FNum r).
                        { destruct (symbols_some t Gt) as (x & Hx). pose proof (On x Hx). subst x. now apply Rw'. }
                        destruct Hw as (r & Hw). rewrite Hw in Hc. destruct (complemented v); exact Hc.
                --- intros (str & Hs & _). now destruct (NS str).
             ++ exfalso. assert (T : set_eqb eeqb vs [bit true] = true); [|congruence].
                unfold set_eqb. apply andb_true_iff. split.
                ** apply forallb_forall. intros x Hx. simpl. rewrite orb_false_r. apply eeqb_eR.
                   rewrite (V1 x Hx). simpl. now rewrite nint1.
                ** simpl. rewrite andb_true_r. apply existsb_exists. destruct vs as [|x vs]; [destruct Wvs as (_ & K); now destruct K|].
                   exists x. split; [now left|]. apply eeqb_eR. rewrite (V1 x (or_introl eq_refl)). simpl. now rewrite nint1.
          -- intros i q _ _ _ Hf. discriminate.
    - (* EOr *)
      split; [intros []|]. intros _ b s r Ws Is Hi. simpl in Hi.
      destruct bits_f as (A & B & C). simpl in G. destruct G as (_ & G). rewrite All_Forall, Forall_forall in G. rewrite Forall_forall in H.
      eapply (dispatch_exact io (fun _ => True) sub1); try exact Hi; eauto using closedU_any, closedS_sub1.
      + intros w z Hz. apply event_bit in Hz; auto. apply C. destruct Hz as [[= ->]|[= ->]]; auto.
      + clear Hi s Ws Is r. intros vs r Wvs S1 _ Hi. cbv beta in Hi. inv_bind Hi. apply mapM_Forall2 in E. rename r0 into xs.
        assert (F : Forall2 (fun e x => In e l /\ exactK (fun _ => True) X b e (PB (BReal vs)) x) l xs).
        { eapply Forall2_strong; [|exact E]. intros p x Hp Hx. cbv beta in Hx. split; auto.
          destruct (G p Hp) as (G1 & G2). destruct (H p Hp G1 (only_in X l p On Hp)) as (_ & Ev). apply (Ev G2); auto. }
        assert (Wx : Forall wf xs) by (clear -F; induction F as [|? ? ? ? (_ & K & _)]; constructor; auto).
        apply make_union_f in Hi; auto. destruct Hi as (U1 & U2 & _ & _). unfold exactK. ands; auto.
        intros w Rw. rewrite U2. simpl in Rw.
        assert (Eq : (exists x, In x xs /\ fm (w X) x) <-> exists e, In e l /\ exists z, teval e w = Some (FNum z) /\ fm (FNum z) (PB (BReal vs))).
        { apply (Forall2_ex _ _ (fun e => exists z, teval e w = Some (FNum z) /\ fm (FNum z) (PB (BReal vs))) (fun x => fm (w X) x)).
          eapply Forall2_strong; [|exact F]. intros p x Hp (_ & _ & _ & K). apply K.
          now apply All_In with (x := p) in Rw. }
        rewrite Eq. split.
        * intros (e & He & z & Z1 & Z2). exists z. split; auto. apply S1 in Z2. injection Z2 as ->.
          change (holds (EOr l) w). apply holds_or. eauto.
        * intros (z & Z1 & Z2). pose proof Z2 as Z3. apply S1 in Z3. injection Z3 as ->.
          assert (Hh : holds (EOr l) w) by exact Z1. apply holds_or in Hh. destruct Hh as (e & He & Hh). exists e. split; auto.
          exists 1. auto.
      + intros i q _ _ _ Hf. discriminate.
    - (* EAnd *)
      split; [intros []|]. intros _ b s r Ws Is Hi. simpl in Hi.
      destruct bits_f as (A & B & C). simpl in G. destruct G as (_ & G). rewrite All_Forall, Forall_forall in G. rewrite Forall_forall in H.
      eapply (dispatch_exact io (fun _ => True) sub1); try exact Hi; eauto using closedU_any, closedS_sub1.
      + intros w z Hz. apply event_bit in Hz; auto. apply C. destruct Hz as [[= ->]|[= ->]]; auto.
      + clear Hi s Ws Is r. intros vs r Wvs S1 _ Hi. cbv beta in Hi. inv_bind Hi. apply mapM_Forall2 in E. rename r0 into xs.
        assert (F : Forall2 (fun e x => In e l /\ exactK (fun _ => True) X b e (PB (BReal vs)) x) l xs).
        { eapply Forall2_strong; [|exact E]. intros p x Hp Hx. cbv beta in Hx. split; auto.
          destruct (G p Hp) as (G1 & G2). destruct (H p Hp G1 (only_in X l p On Hp)) as (_ & Ev). apply (Ev G2); auto. }
        assert (Wx : Forall wf xs) by (clear -F; induction F as [|? ? ? ? (_ & K & _)]; constructor; auto).
        assert (Ne : l <> []).
        { intros ->. inversion F; subst. discriminate. }
        apply make_intersection_f in Hi; auto. destruct Hi as (U1 & U2). unfold exactK. ands; auto.
        intros w Rw. rewrite U2. simpl in Rw.
        assert (Eq : (forall x, In x xs -> fm (w X) x) <-> forall e, In e l -> exists z, teval e w = Some (FNum z) /\ fm (FNum z) (PB (BReal vs))).
        { apply (Forall2_all _ _ (fun e => exists z, teval e w = Some (FNum z) /\ fm (FNum z) (PB (BReal vs))) (fun x => fm (w X) x)).
          eapply Forall2_strong; [|exact F]. intros p x Hp (_ & _ & _ & K). apply K.
          now apply All_In with (x := p) in Rw. }
        rewrite Eq. clear Eq. split.
        * intros HH. destruct l as [|e0 l]; [tauto|]. destruct (HH e0 (or_introl eq_refl)) as (z & Z1 & Z2).
          exists 1. split.
          -- change (holds (EAnd (e0 :: l)) w). apply holds_and. intros e He. destruct (HH e He) as (z' & H1 & H2).
             apply S1 in H2. injection H2 as ->. exact H1.
          -- pose proof Z2 as Z3. apply S1 in Z3. injection Z3 as ->. exact Z2.
        * intros (z & Z1 & Z2) e He. pose proof Z2 as Z3. apply S1 in Z3. injection Z3 as ->. exists 1. split; auto.
          assert (Hh : holds (EAnd l) w) by exact Z1. rewrite holds_and in Hh. now apply Hh.
      + intros i q _ _ _ Hf. discriminate.
  Qed.

  Theorem solve_ok : forall X e r b, good e -> only X e -> is_event e = true -> solve e = Ok r ->
    wf r /\ forall w, regular b e w -> (fm (w X) r <-> holds e w).
  Proof.
    intros X e r b G On Is H. unfold Trans.solve in H. eapply solve_event; eauto.
    - now apply invert_ok.
    - destruct (id_values e); auto. destruct (Nat.ltb _ _); [discriminate|auto].
  Qed.
End Main.
