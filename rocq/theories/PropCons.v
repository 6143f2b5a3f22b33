(** Properties C26-C29, C31, C32: building, simplifying, sharing and transforming expressions. *)
From Coq Require Import List Bool String Reals Lra Lia ZArith QArith Qreals FunctionalExtensionality Permutation.
From Verif Require Import Base Num Sets SetSpec SetIv SetProofs SetOr SetOps SetAlg SetBuilt
  Poly Trans TransSpec TransFacts PolyProofs InvProofs InvMain EvProofs ArithProofs
  Dnf DnfSpec DnfProofs DnfUnion Logs Spe SpeSpec SpeFacts SpeRect LeafProofs LeafEvents LeafCond SpeCons LeafGiven
  MemoProofs PropTrans LogprobProofs LogprobTop SpeEq SimplifyProofs CondTypes CondProofs CondTop SpeOps OpsProofs BuildProofs PropSpe TransformProofs TransformTotal.
Import ListNotations.
Local Open Scope R_scope.

Section Properties.
  Context {N : numsys} {S : logsys} {D : distsys N S} (io : iterorder N) (so : strorder) (po : polyoracle N) (fuel : nat).
  Context (dlaw : dist D -> (fval -> R) -> R) (Ed : eq_dist dlaw).
  Context (ident : spe D -> nat) (hash : spe D -> Z).
  Context (nominal : string -> bool) (envof : string -> tenv (N:=N)).
  Notation spe := (spe D).
  Notation tr := (tr N).
  Notation den := (den dlaw).
  Notation prob := (prob dlaw).
  Notation wf_spe := (wf_spe dlaw).
  Notation wf_leaf := (wf_leaf dlaw).
  Notation surely := (surely dlaw).
  Notation typed := (typed (D:=D) nominal envof).
  Notation distinct := (distinct ident).
  Notation logprob := (logprob io po fuel ident).
  Notation condition := (condition io so po fuel ident hash).

  (** ** C26: mixtures.  The law of t is the weighted sum of the laws of the children, for every
      function of the assignment; the weights of the flattened sum total 1. *)
  Theorem C26_sum : forall cs (ws : list (lg S)) t, Forall wf_spe cs -> sumR (map toP ws) = 1 -> mk_Sum cs ws = Ok t ->
    List.length cs = List.length ws /\ wf_spe t /\ (exists l, t = SumSPE l /\ sumR (map (fun c => toP (snd c)) l) = 1) /\
    forall f w, den t f w = sumR (map (fun p => toP (snd p) * den (fst p) f w) (combine cs ws)).
  Proof.
    intros cs ws t W T H. destruct (mk_Sum_ok dlaw cs ws t W H T) as (A & B & (l & ->) & _ & C). split; auto. split; auto. split; auto. exists l. split; auto. apply B.
  Qed.
  (** it is built from any children that have the same variables *)
  Theorem C26_sum_total : forall cs (ws : list (lg S)), cs <> [] -> List.length cs = List.length ws -> Forall wf_spe cs -> sumR (map toP ws) = 1 ->
    (forall c d x, In c cs -> In d cs -> vars c x -> vars d x) -> exists t, mk_Sum cs ws = Ok t.
  Proof. exact (mk_Sum_total dlaw). Qed.
  (** children whose variables differ are refused *)
  Theorem C26_sum_refuses : forall cs (ws : list (lg S)) c d x, Forall wf_spe cs -> List.length cs = List.length ws -> sumR (map toP ws) = 1 ->
    In c cs -> In d cs -> vars c x -> ~ vars d x -> exists e, mk_Sum cs ws = Raise e.
  Proof.
    intros cs ws c d x W L T Hc Hd Vc Vd. destruct (mk_Sum cs ws) as [t|e] eqn:E; [|eauto]. exfalso. apply Vd. destruct (mk_Sum_ok dlaw cs ws t W E T) as (_ & _ & _ & V & _). apply (V d x Hd). now apply (V c x Hc).
  Qed.
  (** no sum is left directly inside a sum *)
  Theorem C26_sum_flat : forall (cs : list spe) (ws : list (lg S)) t, (forall c, In c cs -> forall l, c = SumSPE l -> forall d, In d l -> forall m, fst d <> SumSPE m) ->
    mk_Sum cs ws = Ok t -> forall l, t = SumSPE l -> forall d, In d l -> forall m, fst d <> SumSPE m.
  Proof.
    intros cs ws t F H l -> d Hd m E. assert (K : flat (SumSPE l)).
    { apply (mk_Sum_flat cs ws); auto. apply Forall_forall. intros c Hc. unfold flat. destruct c; auto. intros e He. specialize (F _ Hc _ eq_refl e He). destruct (fst e); auto. now apply (F _ eq_refl). }
    specialize (K d Hd). rewrite E in K. exact K.
  Qed.
  (** x1 * s1 | x2 * s2 | ... *)
  Theorem C26_mixture : forall t ts s, Forall (fun t => wf_spe (snd t)) (t :: ts) -> mixture t ts = Ok (inr s) ->
    (Qsum (map fst (t :: ts)) == 1)%Q /\ wf_spe s /\ forall f w, den s f w = sumR (map (fun c => Q2R (fst c) * den (snd c) f w) (t :: ts)).
  Proof. intros t ts s F H. destruct (mixture_law dlaw t ts s F H) as (A & B & _ & C). auto. Qed.
  Theorem C26_mixture_total : forall t ts, ts <> [] -> Forall (fun t => (0 < fst t)%Q /\ wf_spe (snd t)) (t :: ts) -> (Qsum (map fst (t :: ts)) == 1)%Q ->
    (forall c d x, In c (t :: ts) -> In d (t :: ts) -> vars (snd c) x -> vars (snd d) x) -> exists s, mixture t ts = Ok (inr s).
  Proof. exact (mixture_total dlaw). Qed.
  (** ExposedSumSPE: the value n of the new variable x has its weight in spe_weights, and given
      that value the other variables are drawn from the child of n *)
  Theorem C26_exposed : forall children x ws t, wf_leaf (NominalLeaf x ws) -> Forall (fun p => wf_spe (snd p)) children ->
    ExposedSumSPE io so po fuel children x ws = Ok t ->
    wf_spe t /\ (forall n, In n (map fst ws) -> exists c, lookup n children = Some c) /\
    forall f w, den t f w = sumR (map (fun p => Q2R (snd p) * match lookup (fst p) children with Some c => den c f (upd w x (FStr (fst p))) | None => 0 end) ws).
  Proof.
    intros children x ws t W Wc H. destruct (exposed_ok io so po fuel dlaw children x ws t W Wc H) as (A & B & C). split; auto. split; auto.
    intros n Hn. destruct (B n Hn) as (c & L & _). eauto.
  Qed.

  (** ** C27: products *)
  Theorem C27_product : forall cs t, Forall wf_spe cs -> mk_Product cs = Ok t ->
    wf_spe t /\ (exists l, t = ProductSPE l) /\ ForallOrdPairs (fun c d => forall x, ~ (vars c x /\ vars d x)) cs.
  Proof.
    intros cs t W H. destruct (mk_Product_ok dlaw cs t W H) as (A & B & _ & _ & C & _). split; auto. split; auto.
    eapply FOP_weaken; [|exact C]. intros c d _ _ K x (V1 & V2). exact (K x V1 V2).
  Qed.
  (** independence: functions of the variables of one child each *)
  Theorem C27_independent : forall cs t fs w, Forall wf_spe cs -> mk_Product cs = Ok t -> Forall2 (fun c f => bnd f /\ uses (vars c) f) cs fs ->
    den t (fun a => prodR (map (fun f => f a) fs)) w = prodR (map (fun p => den (fst p) (snd p) w) (combine cs fs)).
  Proof.
    clear ident hash nominal envof. intros cs t fs w W H F. destruct (mk_Product_ok dlaw cs t W H) as (_ & _ & _ & _ & Ap & Dt). rewrite Dt. clear Dt H. revert w.
    induction F as [|c f cs fs (Bf & Uf) F IH]; intros w; [reflexivity|]. inversion W as [|? ? Wc Wcs]; subst. inversion Ap as [|? ? A1 A2]; subst. rewrite Forall_forall in A1.
    assert (Wl : All wf_spe cs) by (apply all_forall; now apply Forall_forall).
    assert (Bp : forall fs, Forall bnd fs -> bnd (fun a : asg => prodR (map (fun f => f a) fs))).
    { clear. induction fs as [|g fs IH]; intros K; cbn [map prodR fold_right]; auto with bnd. inversion K; subst. apply bnd_mult; auto. }
    cbn [map]. change (fun a : asg => prodR (f a :: map (fun f => f a) fs)) with (fun a : asg => f a * prodR (map (fun f => f a) fs)).
    rewrite (prod_split dlaw c cs); auto.
    - cbn [combine map fst snd]. change (prodR (?a :: ?l)) with (a * prodR l). f_equal. apply IH; auto.
    - apply Bp. clear -F. induction F as [|c f cs fs (B & _)]; constructor; auto.
    - intros a b E. apply Uf. intros x Hx. apply E. intros K. apply pvars_in in K. destruct K as (d & Hd & K). apply (A1 d Hd x); auto. destruct (dec (vars c x)); tauto.
    - intros a b E. cbv beta. assert (Eq : forall g, In g fs -> g a = g b); [|apply prodR_ext; exact Eq].
      intros g Hg. destruct (ArithProofs.Forall2_in_r _ _ _ _ _ _ F Hg) as (d & Hd & _ & Ud). apply Ud. intros x Hx. apply E. intros K. apply (A1 d Hd x); auto. destruct (dec (vars d x)); tauto.
  Qed.
  (** events about the variables of one child each: the probability of all is the product *)
  Theorem C27_events : forall cs t es, Forall wf_spe cs -> mk_Product cs = Ok t -> Forall2 (fun c e => good e /\ forall x, In x (symbols e) -> vars c x) cs es ->
    Pr dlaw t (fun a => forall e, In e es -> holds e a) = prodR (map (fun p => prob (fst p) (snd p)) (combine cs es)).
  Proof.
    clear ident hash nominal envof. intros cs t es W H F. pose proof (C27_independent cs t (map (fun e => ind (holds e)) es) w0 W H) as K.
    assert (F2 : Forall2 (fun c f => bnd f /\ uses (vars c) f) cs (map (fun e => ind (holds e)) es)).
    { clear -F. induction F as [|c e cs es (G & V) _ IH]; constructor; auto. split; [apply bnd_ind|]. intros a b E. apply ind_eq. unfold holds. rewrite (teval_agree e a b); [tauto|auto|]. intros x Hx. apply E. auto. }
    specialize (K F2). unfold Pr. replace (ind (fun a => forall e, In e es -> holds e a)) with (fun a => prodR (map (fun f => f a) (map (fun e => ind (holds e)) es))).
    - rewrite K. clear. revert es. induction cs as [|c cs IH]; intros [|e es]; auto. cbn [map combine]. change (prodR (?a :: ?l)) with (a * prodR l). f_equal. apply IH.
    - extensionality a. rewrite map_map. clear. induction es as [|e es IH]; cbn [map].
      + symmetry. apply ind_true. intros e [].
      + change (prodR (?a :: ?l)) with (a * prodR l). rewrite IH, <- ind_and. apply ind_eq. split.
        * intros (H1 & H2) e' [<-|He]; auto.
        * intros K. split; intros; apply K; [now left|now right].
  Qed.
  (** s & t *)
  Theorem C27_and : forall s t u f g w, wf_spe s -> wf_spe t -> spe_and s t = Ok u -> bnd f -> bnd g -> uses (vars s) f -> uses (vars t) g ->
    den u (fun a => f a * g a) w = den s f w * den t g w.
  Proof.
    intros s t u f g w Ws Wt H Bf Bg Uf Ug. pose proof (C27_independent [s; t] u [f; g] w) as K. cbn [map combine fst snd prodR fold_right] in K. rewrite !Rmult_1_r in K. rewrite <- K; auto.
    f_equal. extensionality a. ring.
  Qed.
  Theorem C27_total : forall cs, cs <> [] -> Forall wf_spe cs -> ForallOrdPairs (fun c d => forall x, ~ (vars c x /\ vars d x)) cs -> exists t, mk_Product cs = Ok t.
  Proof.
    intros cs Ne W Ap. apply (mk_Product_total dlaw); auto. eapply FOP_weaken; [|exact Ap]. intros c d _ _ K x V1 V2. apply (K x). auto.
  Qed.
  Theorem C27_refuses : forall l1 c l2 d l3 x, Forall wf_spe (l1 ++ c :: l2 ++ d :: l3) -> vars c x -> vars d x -> exists e, mk_Product (l1 ++ c :: l2 ++ d :: l3) = Raise e.
  Proof.
    intros l1 c l2 d l3 x W V1 V2. destruct (mk_Product _) as [t|e] eqn:E; [|eauto]. exfalso. destruct (mk_Product_ok dlaw _ t W E) as (_ & _ & _ & _ & Ap & _). apply fop_mid in Ap. destruct Ap as (_ & A & _). rewrite Forall_forall in A. apply (A d) with (x := x); auto. apply in_app_iff. simpl. auto.
  Qed.
  (** no product is left directly inside a product *)
  Theorem C27_flat : forall (cs : list spe) t, (forall c, In c cs -> forall l, c = ProductSPE l -> forall d, In d l -> forall m, d <> ProductSPE m) ->
    mk_Product cs = Ok t -> forall l, t = ProductSPE l -> forall d, In d l -> forall m, d <> ProductSPE m.
  Proof.
    intros cs t F H l -> d Hd m E. assert (K : pflat (ProductSPE l)).
    { apply (mk_Product_flat cs); auto. apply Forall_forall. intros c Hc. unfold pflat. destruct c; auto. intros e He. specialize (F _ Hc _ eq_refl e He). destruct e; auto. now apply (F _ eq_refl). }
    specialize (K d Hd). rewrite E in K. exact K.
  Qed.

  (** ** C28: spe_simplify_sum, when leaves of the sum with equal hashes are equal *)
  Theorem C28_simplify : forall s t, wf_spe s -> typed s ->
    (forall l c d, s = SumSPE l -> In c l -> In d l -> is_leaf (fst c) = true -> is_leaf (fst d) = true -> hash (fst c) = hash (fst d) -> speqb (fst c) (fst d) = true) ->
    simplify hash s = Ok t -> wf_spe t /\ (forall x, vars t x <-> vars s x) /\ same_law dlaw s t.
  Proof.
    intros s t W T Hh H. destruct s as [| | |l|]; try discriminate H. cbn [simplify] in H. unfold simplify_sum in H. destruct l as [|(c, wc) l]; [discriminate H|]. destruct (is_leaf c).
    - destruct (simplify_leaf_ok dlaw Ed envof hash ((c, wc) :: l) t W) as (A & B & C); auto.
      + eapply every_impl; [|exact T]. intros s. apply part_aenv.
      + intros a b. now apply Hh.
      + split; auto. split; auto. intros f _ w. symmetry. apply C.
    - destruct (is_product c); [|discriminate H].
      destruct (simplify_product_ok dlaw Ed envof (part_ok nominal envof) (part_aenv nominal envof) True (part_sum nominal envof) (part_prod nominal envof) ((c, wc) :: l) t W T) as (A & _ & B & C); auto.
      intros c' m [= <- <-]. apply every_here in T. cbn in T. inversion T; subst. auto.
  Qed.

  (** ** C29: sharing equal subtrees, for any memo table of well-formed expressions in which the
      atoms of one variable have one environment *)
  Theorem C29_share : forall s m s' m', wf_spe s -> every (aenv envof) s -> Forall (fun k => wf_spe k /\ every (aenv envof) k) m ->
    cache_duplicate_subtrees hash s m = (s', m') ->
    wf_spe s' /\ (forall x, vars s' x <-> vars s x) /\ (forall f w, den s' f w = den s f w) /\ Forall (fun k => wf_spe k /\ every (aenv envof) k) m'.
  Proof.
    intros s m s' m' W A M C. destruct (cache_ok dlaw Ed envof hash s m s' m' (conj W A) M C) as ((W' & _) & (L & V) & M'). split; auto. split; [intros x; now rewrite V|]. split; auto.
  Qed.

  (** ** C31: transform.  t must almost surely be defined, and used inside the domains of its parts *)
  Definition usable (s : spe) (t : tr) : Prop := good t /\ realv t /\ surely s (fun a => teval t a <> None /\ regular true t a).
  Lemma typed_heavy : forall s, typed s -> every (heavy (D:=D)) s.
  Proof. intros s T. eapply every_impl; [|exact T]. intros [] K; exact K || exact Logic.I. Qed.
  (** a draw of the new expression is a draw of the old one with y set to the value of t *)
  Theorem C31_law : forall s y t s', wf_spe s -> every (heavy (D:=D)) s -> usable s t -> transform s y t = Ok s' ->
    wf_spe s' /\ ~ vars s y /\ (forall x, In x (symbols t) -> vars s x) /\
    forall f w, den s' f w = den s (fun a => f (upd a y (value_or (teval t a)))) w.
  Proof. intros s y t s' W Hv (G & R & U) H. destruct (transform_ok dlaw s y t s' W Hv G R U H) as (A & B & C & _ & E). auto. Qed.
  (** transform returns exactly when y is new and every product has a numeric leaf with all the
      variables of t *)
  Theorem C31_returns : forall s y t, wf_spe s -> every (heavy (D:=D)) s -> usable s t -> symbols t <> [] ->
    ((exists s', transform s y t = Ok s') <-> ~ vars s y /\ hosts s t).
  Proof.
    clear ident hash nominal envof. intros s y t W Hv U Ne. pose proof U as (G & R & Nt). split.
    - intros (s' & H). destruct (C31_law s y t s' W Hv U H) as (_ & Ny & _). split; auto. exact (transform_hosts s y t s' H).
    - intros (Ny & Ho). now apply (transform_total dlaw s y t W Hv G R Nt Ne).
  Qed.
  (** events on the old variables keep their probability *)
  Theorem C31_old : forall s y t s' e, wf_spe s -> every (heavy (D:=D)) s -> usable s t -> transform s y t = Ok s' -> good e -> ~ In y (symbols e) -> prob s' e = prob s e.
  Proof.
    clear ident hash nominal envof. intros s y t s' e W Hv U H G Hy. destruct (C31_law s y t s' W Hv U H) as (_ & _ & _ & Dn). unfold SpeSpec.prob, Pr. rewrite Dn. f_equal. extensionality a. apply ind_eq. unfold holds. rewrite (teval_agree e _ a); [tauto|auto|].
    intros x Hx. apply upd_other. intros ->. contradiction.
  Qed.
  (** an event on y has the probability of the same event on t *)
  Theorem C31_new : forall s y t s' k v, wf_spe s -> every (heavy (D:=D)) s -> usable s t -> transform s y t = Ok s' -> prob s' (EBasic k (TId y) v) = prob s (EBasic k t v).
  Proof.
    clear ident hash nominal envof. intros s y t s' k v W Hv U H. destruct (C31_law s y t s' W Hv U H) as (_ & _ & _ & Dn). unfold SpeSpec.prob, Pr. rewrite Dn. destruct U as (_ & _ & U).
    apply (law_as (den_kernel dlaw s W w0) _ _ _ (U w0)); auto with bnd.
    intros a Ha. apply ind_eq. unfold holds. cbn [teval]. rewrite upd_same. destruct (teval t a) eqn:E; [cbn; tauto|]. exfalso. apply Ha. intros (K & _). congruence.
  Qed.
  (** any event after replacing y by its definition, as substitute does *)
  Theorem C31_substitute : forall s y t s' n e e', wf_spe s -> every (heavy (D:=D)) s -> usable s t -> transform s y t = Ok s' ->
    substitute io po fuel n [(y, t)] e = Ok e' -> good e' -> ~ In y (symbols e') -> prob s' e = prob s e'.
  Proof.
    clear ident hash nominal envof. intros s y t s' n e e' W Hv U H Sb G Hy. rewrite <- (C31_old s y t s' e' W Hv U H G Hy). destruct (C31_law s y t s' W Hv U H) as (_ & _ & Sy & Dn). unfold SpeSpec.prob, Pr. rewrite !Dn. pose proof U as (Gt & _ & Un).
    apply (law_as (den_kernel dlaw s W w0) _ _ _ (Un w0)); auto with bnd.
    intros a Ha. apply ind_eq. unfold holds. rewrite (C19_substitute_faithful io po fuel n [(y, t)] e e' Sb); [tauto|].
    intros x u L. cbn in L. destruct (String.eqb_spec x y) as [->|]; [injection L as <-|discriminate]. rewrite upd_same. rewrite (teval_agree t _ a); auto.
    - destruct (teval t a) eqn:E; [reflexivity|]. exfalso. apply Ha. intros (K & _). congruence.
    - intros x Hx. apply upd_other. intros ->. destruct (C31_law s y t s' W Hv U H) as (_ & K & _). auto.
  Qed.
  (** the answers of logprob before and after *)
  Theorem C31_logprob_old : forall s y t s' e p q, wf_spe s -> typed s -> nominal y = false -> usable s t -> transform s y t = Ok s' -> distinct s -> distinct s' ->
    askable dlaw nominal s e -> ~ In y (symbols e) -> fresh (logprob s e) = Ok p -> fresh (logprob s' e) = Ok q -> toP q = toP p.
  Proof.
    clear hash. intros s y t s' e p q W T Ny U H Ds Ds' (G & Rg & Ke) Hy Hp Hq. pose proof (typed_heavy s T) as Hv. destruct (C31_law s y t s' W Hv U H) as (W' & _ & _ & Dn). pose proof U as (Gt & Rt & _).
    rewrite (C22_logprob io po fuel dlaw ident nominal s e p); auto; [|now apply typed_atoms with (envof := envof)|now split].
    rewrite (C22_logprob io po fuel dlaw ident nominal s' e q); auto.
    - apply (C31_old s y t s' e); auto. apply G.
    - apply typed_atoms with (envof := envof_ext envof y t). now apply (transform_typed dlaw nominal envof s y t).
    - split; auto. split; auto. intros w. rewrite Dn. rewrite <- (Rg w). f_equal. extensionality a. apply ind_eq. split; intros K1 K2; apply K1;
        [eapply regular_agree; [apply G| |exact K2]|eapply regular_agree; [apply G| |exact K2]]; intros x Hx; [symmetry|]; apply upd_other; intros ->; contradiction.
  Qed.
  Theorem C31_logprob_new : forall s y t s' k v p q, wf_spe s -> typed s -> nominal y = false -> usable s t -> transform s y t = Ok s' -> distinct s -> distinct s' ->
    askable dlaw nominal s (EBasic k t v) -> askable dlaw nominal s' (EBasic k (TId y) v) ->
    fresh (logprob s (EBasic k t v)) = Ok p -> fresh (logprob s' (EBasic k (TId y) v)) = Ok q -> toP q = toP p.
  Proof.
    clear hash. intros s y t s' k v p q W T Ny U H Ds Ds' A A' Hp Hq. pose proof (typed_heavy s T) as Hv. destruct (C31_law s y t s' W Hv U H) as (W' & _ & _ & Dn).
    rewrite (C22_logprob io po fuel dlaw ident nominal s (EBasic k t v) p); auto; [|now apply typed_atoms with (envof := envof)].
    rewrite (C22_logprob io po fuel dlaw ident nominal s' (EBasic k (TId y) v) q); auto.
    - now apply C31_new.
    - apply typed_atoms with (envof := envof_ext envof y t). now apply (transform_typed dlaw nominal envof s y t).
  Qed.

  (** ** C32: get_symbols *)
  Theorem C32_symbols : forall (s : spe) x, In x (get_symbols s) <-> vars s x.
  Proof. exact (get_symbols_vars dlaw). Qed.
  Theorem C32_nodup : forall s : spe, wf_spe s -> NoDup (get_symbols s).
  Proof. exact (get_symbols_nodup dlaw). Qed.
  Theorem C32_condition : forall s e t, wf_spe s -> typed s -> distinct s -> conditionable dlaw nominal s e -> fresh (condition s e) = Ok t ->
    forall x, In x (get_symbols t) <-> In x (get_symbols s).
  Proof.
    intros s e t W T Ds C H x. destruct (C24_given io so po fuel dlaw Ed ident hash nominal envof s e t W T Ds C H) as (_ & _ & V & _). rewrite !C32_symbols. apply V.
  Qed.
  Theorem C32_transform : forall s y t s', wf_spe s -> every (heavy (D:=D)) s -> usable s t -> transform s y t = Ok s' ->
    ~ In y (get_symbols s) /\ forall x, In x (get_symbols s') <-> In x (get_symbols s) \/ x = y.
  Proof.
    intros s y t s' W Hv (G & R & U) H. destruct (transform_ok dlaw s y t s' W Hv G R U H) as (_ & B & _ & V & _). split; [now rewrite C32_symbols|]. intros x. rewrite !C32_symbols. apply V.
  Qed.
  Theorem C32_and : forall s t u, wf_spe s -> wf_spe t -> spe_and s t = Ok u ->
    forall x, (In x (get_symbols u) <-> In x (get_symbols s) \/ In x (get_symbols t)) /\ ~ (In x (get_symbols s) /\ In x (get_symbols t)).
  Proof.
    intros s t u Ws Wt H x. destruct (mk_Product_ok dlaw [s; t] u (Forall_cons _ Ws (Forall_cons _ Wt (Forall_nil _))) H) as (_ & _ & V & _ & Ap & _). rewrite !C32_symbols. rewrite V. split.
    - split; [intros (c & [<-|[<-|[]]] & K); auto|]. intros [K|K]; [exists s|exists t]; simpl; auto.
    - intros (V1 & V2). inversion Ap as [|? ? F _]; subst. inversion F as [|? ? F' _]; subst. exact (F' x V1 V2).
  Qed.
  Theorem C32_sum : forall cs (ws : list (lg S)) t, Forall wf_spe cs -> sumR (map toP ws) = 1 -> mk_Sum cs ws = Ok t -> forall c x, In c cs -> (In x (get_symbols t) <-> In x (get_symbols c)).
  Proof. intros cs ws t W T H c x Hc. destruct (mk_Sum_ok dlaw cs ws t W H T) as (_ & _ & _ & V & _). rewrite !C32_symbols. now apply V. Qed.
  Theorem C32_product : forall cs t, Forall wf_spe cs -> mk_Product cs = Ok t -> forall x, In x (get_symbols t) <-> exists c, In c cs /\ In x (get_symbols c).
  Proof. intros cs t W H x. destruct (mk_Product_ok dlaw cs t W H) as (_ & _ & V & _). rewrite C32_symbols, V. split; intros (c & Hc & K); exists c; (split; [auto|]); now apply C32_symbols. Qed.
  Theorem C32_mixture : forall t ts s, Forall (fun t => wf_spe (snd t)) (t :: ts) -> mixture t ts = Ok (inr s) -> forall c x, In c (t :: ts) -> (In x (get_symbols s) <-> In x (get_symbols (snd c))).
  Proof. intros t ts s F H c x Hc. destruct (mixture_law dlaw t ts s F H) as (_ & _ & V & _). rewrite !C32_symbols. now apply V. Qed.
  Theorem C32_exposed : forall children x ws t, wf_leaf (NominalLeaf x ws) -> Forall (fun p => wf_spe (snd p)) children ->
    ExposedSumSPE io so po fuel children x ws = Ok t -> forall n c, In n (map fst ws) -> lookup n children = Some c ->
    ~ In x (get_symbols c) /\ forall z, In z (get_symbols t) <-> In z (get_symbols c) \/ z = x.
  Proof.
    intros children x ws t W Wc H n c Hn L. destruct (exposed_ok io so po fuel dlaw children x ws t W Wc H) as (_ & B & _). destruct (B n Hn) as (c' & L' & Nv & V). rewrite L in L'. injection L' as <-.
    split; [now rewrite C32_symbols|]. intros z. rewrite !C32_symbols. apply V.
  Qed.
  Theorem C32_simplify : forall s t, wf_spe s -> typed s ->
    (forall l c d, s = SumSPE l -> In c l -> In d l -> is_leaf (fst c) = true -> is_leaf (fst d) = true -> hash (fst c) = hash (fst d) -> speqb (fst c) (fst d) = true) ->
    simplify hash s = Ok t -> forall x, In x (get_symbols t) <-> In x (get_symbols s).
  Proof. intros s t W T Hh H x. destruct (C28_simplify s t W T Hh H) as (_ & V & _). rewrite !C32_symbols. apply V. Qed.
End Properties.

Definition all_cons_properties := (@C26_sum, @C26_sum_total, @C26_sum_refuses, @C26_sum_flat, @C26_mixture, @C26_mixture_total, @C26_exposed,
  @C27_product, @C27_independent, @C27_events, @C27_and, @C27_total, @C27_refuses, @C27_flat, @C28_simplify, @C29_share,
  @C31_law, @C31_returns, @C31_old, @C31_new, @C31_substitute, @C31_logprob_old, @C31_logprob_new,
  @C32_symbols, @C32_nodup, @C32_condition, @C32_transform, @C32_and, @C32_sum, @C32_product, @C32_mixture, @C32_exposed, @C32_simplify).
Print Assumptions all_cons_properties.
