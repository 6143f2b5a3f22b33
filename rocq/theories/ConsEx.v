(** Cases and refutations for C26-C29, C31, C32. *)
From Coq Require Import List Bool String Reals Lra Lia ZArith QArith Qabs Qreals FunctionalExtensionality.
From Verif Require Import Base Num Sets SetSpec SetIv SetProofs SetOr SetOps SetAlg SetBuilt
  Poly Trans TransSpec TransFacts PolyProofs InvProofs InvMain EvProofs ArithProofs PolyEx
  Dnf DnfSpec DnfProofs DnfUnion Logs Spe SpeSpec SpeFacts SpeRect LeafProofs LeafEvents LeafCond SpeCons LeafGiven MemoProofs PropTrans NormSorts LogprobProofs LogprobTop SpeEq SimplifyProofs CondTypes CondProofs CondTop PropSpe Uniform Instances SpeEx
  SpeOps OpsProofs BuildProofs TransformProofs TransformTotal PropCons.
Import ListNotations.
Local Open Scope R_scope.
Local Open Scope string_scope.

Lemma toP_sum3 : forall a b c : Q, Qle_bool 0 a = true -> Qle_bool 0 b = true -> Qle_bool 0 c = true -> (a + b + c == 1)%Q -> sumR (map (@toP LQ) [a; b; c]) = 1.
Proof.
  intros a b c Ha Hb Hc E. cbn [map sumR fold_right]. rewrite !lqP' by auto. rewrite Rplus_0_r. rewrite <- Rplus_assoc, <- !Q2R_plus, (Qeq_eqR _ _ E). unfold Q2R; cbn; lra.
Qed.
Lemma toP_sum2 : forall a b : Q, Qle_bool 0 a = true -> Qle_bool 0 b = true -> (a + b == 1)%Q -> sumR (map (@toP LQ) [a; b]) = 1.
Proof.
  intros a b Ha Hb E. cbn [map sumR fold_right]. rewrite !lqP' by auto. rewrite Rplus_0_r. rewrite <- !Q2R_plus, (Qeq_eqR _ _ E). unfold Q2R; cbn; lra.
Qed.

(** ** C26: a sum inside a sum; operators; an exposed sum *)
Definition flat_sx : spQ := SumSPE (S:=LQ) [(p1, 1#4); (p2, 1#8); (p3, 1#8); (p1, 1#2)]%Q.
Example C26_sum_case : Forall (wf_spe elaw) [sx; p1] /\ sumR (map (@toP LQ) [1#2; 1#2]%Q) = 1 /\ mk_Sum (S:=LQ) [sx; p1] [1#2; 1#2]%Q = Ok flat_sx.
Proof.
  split; [apply Forall_cons; [exact sx_wf|apply Forall_cons; [exact p1_wf|apply Forall_nil]]|]. split; [apply toP_sum2; reflexivity|reflexivity].
Qed.
Lemma sx_same_vars : forall c d x, In c [sx; p1] -> In d [sx; p1] -> vars c x -> vars d x.
Proof. intros c d x [<-|[<-|[]]] [<-|[<-|[]]] H; exact H. Qed.
Example C26_refuse_case : vars sx "Y" /\ ~ vars ux "Y" /\ mk_Sum (S:=LQ) [sx; ux] [1#2; 1#2]%Q = Raise ValueError.
Proof. split; [cbn; auto|]. split; [intros K; apply env_vars in K; destruct K; discriminate|reflexivity]. Qed.
Example C26_mixture_case : Forall (fun t => wf_spe elaw (snd t)) [((1#4)%Q, p1); ((3#4)%Q, p2)] /\
  mixture ((1#4)%Q, p1) [((3#4)%Q, p2)] = Ok (inr (SumSPE (S:=LQ) [(p1, 1#4); (p2, 3#4)]%Q)).
Proof. split; [apply Forall_cons; [exact p1_wf|apply Forall_cons; [exact p2_wf|apply Forall_nil]]|reflexivity]. Qed.
Definition ws_b : list (string * Q) := [("u", 1#3); ("v", 2#3)]%Q.
Definition kids_b : list (string * spQ) := [("v", dx); ("u", ux)].
Definition ex_b : spQ := SumSPE (S:=LQ) [(ProductSPE [NominalLeaf "B" [("u", 1%Q)]; ux], 1#3); (ProductSPE [NominalLeaf "B" [("v", 1%Q)]; dx], 2#3)]%Q.
Lemma ws_b_wf : wf_leaf (D:=DQ) elaw (NominalLeaf "B" ws_b).
Proof. split; [repeat constructor; cbn; intuition discriminate|]. split; [repeat constructor; discriminate|reflexivity]. Qed.
Example C26_exposed_case : wf_leaf (D:=DQ) elaw (NominalLeaf "B" ws_b) /\ Forall (fun p => wf_spe elaw (snd p)) kids_b /\ ExposedSumSPE ioQ so_id po 9 kids_b "B" ws_b = Ok ex_b.
Proof.
  split; [exact ws_b_wf|]. split; [apply Forall_cons; [exact dx_wf|apply Forall_cons; [exact ux_wf|apply Forall_nil]]|reflexivity].
Qed.

(** ** C27 *)
Example C27_case : Forall (wf_spe elaw) [ux; y1] /\ mk_Product [ux; y1] = Ok p1 /\ Forall2 (fun c e => good e /\ forall x, In x (symbols e) -> vars c x) [ux; y1] [zlt; yina] /\
  uses (vars ux) (ind (holds zlt)) /\ uses (vars y1) (ind (holds yina)).
Proof.
  assert (F : Forall2 (fun (c : spQ) e => good e /\ forall x, In x (symbols e) -> vars c x) [ux; y1] [zlt; yina]).
  { constructor; [|constructor; [|constructor]].
    - split; [apply gev_zlt|]. intros x [<-|[]]. cbn. auto.
    - split; [apply gev_yina|]. intros x [<-|[]]. reflexivity. }
  split; [apply Forall_cons; [exact ux_wf|apply Forall_cons; [apply y_wf; easy|apply Forall_nil]]|]. split; [reflexivity|]. split; [exact F|].
  assert (U : forall (c : spQ) (e : tr QS), good e -> (forall x, In x (symbols e) -> vars c x) -> uses (vars c) (ind (holds e))).
  { intros c e G V a b E. apply ind_eq. unfold holds. rewrite (teval_agree e a b); [tauto|auto|]. intros x Hx. apply E. auto. }
  inversion F as [|? ? ? ? (G1 & V1) F']; subst. inversion F' as [|? ? ? ? (G2 & V2) _]; subst. auto.
Qed.
Corollary C27_case_value : Pr elaw p1 (fun a => forall e, In e [zlt; yina] -> holds e a) = prob elaw ux zlt * prob elaw y1 yina.
Proof.
  destruct C27_case as (W & H & F & _). rewrite (C27_events elaw [ux; y1] p1 [zlt; yina] W H F). cbn [combine map fst snd prodR fold_right]. ring.
Qed.
Example C27_refuse_case : mk_Product [ux; y1; dx] = Raise ValueError.
Proof. reflexivity. Qed.

(** ** C28: products with a common factor; equal leaves *)
Definition q1 : spQ := ProductSPE [ux; y1].
Definition q2 : spQ := ProductSPE [dx; y1].
Definition sq : spQ := SumSPE (S:=LQ) [(q1, 1#2); (q2, 1#2)]%Q.
Lemma q2_wf : wf_spe elaw q2.
Proof. apply prod_wf; [exact dx_wf|apply y_wf; easy|]. apply leaf_apart, env_vars. Qed.
Lemma sum2_wf : forall a b (p q : Q), wf_spe elaw a -> wf_spe elaw b -> Qle_bool 0 p = true -> Qle_bool 0 q = true -> (p + q == 1)%Q ->
  (forall x, vars a x <-> vars b x) -> wf_spe elaw (SumSPE (D:=DQ) (S:=LQ) [(a, p); (b, q)]).
Proof.
  intros a b p q Wa Wb Hp Hq E V. split; [exact (conj Wa (conj Wb Logic.I))|]. split; [exact (toP_sum2 p q Hp Hq E)|]. intros c d [<-|[<-|[]]] [<-|[<-|[]]] x; cbn [fst]; intros H; try exact H; now apply V.
Qed.
Lemma pos_w : forall q : Q, Qltb 0 q = true -> 0 < @toP LQ q.
Proof. intros q H. apply Q2R_lt in H. rewrite RMicromega.Q2R_0 in H. assert (Qle_bool 0 q = true) by (apply Qle_bool_iff; apply Rle_Qle; rewrite RMicromega.Q2R_0; lra). rewrite lqP'; auto. Qed.
Example C28_product_case : wf_spe elaw sq /\ typed exnom exenvof sq /\
  (forall l c d, sq = SumSPE l -> In c l -> In d l -> exhash (fst c) = exhash (fst d) -> speqb (fst c) (fst d) = true) /\
  simplify exhash sq = Ok (ProductSPE [SumSPE (S:=LQ) [(ux, 1#2); (dx, 1#2)]%Q; y1]).
Proof.
  split; [apply sum2_wf; [exact p1_wf|exact q2_wf|reflexivity|reflexivity|reflexivity|intros x; reflexivity]|]. split; [|split].
  - split; [apply Forall_cons; [apply pos_w; reflexivity|apply Forall_cons; [apply pos_w; reflexivity|apply Forall_nil]]|]. repeat split; exact env_num.
  - intros l c d [= <-] [<-|[<-|[]]] [<-|[<-|[]]] E; try reflexivity; discriminate E.
  - reflexivity.
Qed.
Definition sl : spQ := SumSPE (S:=LQ) [(y1, 1#2); (y2, 1#4); (y1, 1#4)]%Q.
Example C28_leaf_case : wf_spe elaw sl /\ typed exnom exenvof sl /\
  (forall l c d, sl = SumSPE l -> In c l -> In d l -> exhash (fst c) = exhash (fst d) -> speqb (fst c) (fst d) = true) /\
  simplify exhash sl = Ok (SumSPE (S:=LQ) [(y1, 3#4); (y2, 1#4)]%Q).
Proof.
  split; [|split; [|split]].
  - assert (W1 : wf_spe elaw y1) by (apply y_wf; easy). assert (W2 : wf_spe elaw y2) by (apply y_wf; easy).
    split; [exact (conj W1 (conj W2 (conj W1 Logic.I)))|]. split; [apply toP_sum3; reflexivity|]. intros c d [<-|[<-|[<-|[]]]] [<-|[<-|[<-|[]]]] x H; exact H.
  - split; [repeat (apply Forall_cons; [apply pos_w; reflexivity|]); apply Forall_nil|]. repeat split.
  - intros l c d [= <-] [<-|[<-|[<-|[]]]] [<-|[<-|[<-|[]]]] E; try reflexivity; discriminate E.
  - reflexivity.
Qed.

(** spe_simplify_sum_leaf merges leaves whose hashes agree, without comparing them.  In CPython
    hash(-1) = hash(-2), and the hash of an atomic leaf is that of a tuple of its class, symbol
    and value (src/spe.py:959-961), so the two atoms below have one hash, and their sum becomes the first. *)
Definition base_env : tenv (N:=QS) := [("X", X)].
Definition atm (q : Q) (env : tenv (N:=QS)) : spQ := AtomicLeaf (N:=QS) "X" q env.
Definition am1 : spQ := atm (-1)%Q base_env.
Definition am2 : spQ := atm (-2)%Q base_env.
Definition sa : spQ := SumSPE (S:=LQ) [(am1, 1#2); (am2, 1#2)]%Q.
Lemma atm_wf : forall q, wf_spe elaw (atm q base_env).
Proof.
  intros q. assert (L : forall x t, lookup x base_env = Some t -> x = "X" /\ t = X).
  { intros x t H. unfold base_env, lookup in H. destruct (String.eqb_spec x "X") as [->|]; [injection H as <-; auto|discriminate]. }
  split; [split; [constructor|]; intros x t H; destruct (L x t H) as (-> & ->); split; exact Logic.I|].
  intros w. cbn [den atm]. apply ind_false. intros K. apply K. split; intros x t H; destruct (L x t H) as (-> & ->); [reflexivity|exact Logic.I].
Qed.
Lemma sa_wf : wf_spe elaw sa.
Proof. apply sum2_wf; try apply atm_wf; reflexivity. Qed.
Lemma sa_typed : typed exnom (fun _ => base_env) sa.
Proof.
  assert (B : forall z, In z (map fst base_env) -> exnom z = false) by (intros z [<-|[]]; reflexivity).
  split; [repeat (apply Forall_cons; [apply pos_w; reflexivity|]); apply Forall_nil|]. repeat split; exact B.
Qed.
Definition xis (q : Q) : tr QS := EBasic KReal X (fr [qn q]).
Lemma holds_xis : forall q a, holds (xis q) a <-> a "X" = FNum (Q2R q).
Proof.
  intros q a. rewrite (holds_basic KReal X (fr [qn q])). cbn [teval X]. split.
  - intros (v & [= <-] & _ & K). destruct (a "X") as [x|]; cbn in K; [|contradiction]. destruct K as (c & [<-|[]] & K). cbn in K. congruence.
  - intros E. exists (a "X"). rewrite E. split; [reflexivity|]. split; [exact Logic.I|]. exists (qn q). split; [now left|reflexivity].
Qed.
Theorem C28_refuted : forall hash : spQ -> Z, hash am1 = hash am2 ->
  exists s t e, wf_spe elaw s /\ typed exnom (fun _ => base_env) s /\ gev e /\ simplify hash s = Ok t /\ prob elaw s e = / 2 /\ prob elaw t e = 0.
Proof.
  intros hash H. exists sa, am1, (xis (-2)). split; [exact sa_wf|]. split; [exact sa_typed|]. split; [|split; [|split]].
  - split; [|reflexivity]. refine (conj Logic.I (conj Logic.I (conj _ (or_intror (ex_intro _ [qn (-2)] eq_refl))))). split; [repeat constructor; intros K; now destruct K|discriminate].
  - cbn [simplify sa simplify_sum is_leaf am1 atm]. unfold simplify_sum_leaf. cbn [forallb fst is_leaf am1 am2 atm passert bind andb].
    unfold partition_list_blocks. cbn [fold_left add_block]. fold (atm (-1) base_env) (atm (-2) base_env). fold am1 am2. cbn [fst]. rewrite <- H, Z.eqb_refl. reflexivity.
  - unfold prob, Pr. cbn [den sa map fst snd am1 am2 atm]. repeat change (sumR (?a :: ?l)) with (a + sumR l). change (sumR []) with 0. rewrite !lqP' by reflexivity.
    rewrite ind_false, ind_true; [unfold Q2R; cbn; lra| |]; rewrite holds_xis; cbn; [reflexivity|]. intros K. injection K. unfold Q2R; cbn; lra.
  - unfold prob, Pr. cbn [den am1 atm]. apply ind_false. rewrite holds_xis. cbn. intros K. injection K. unfold Q2R; cbn; lra.
Qed.

(** ** C29: sharing in [sx], whose subtree y1 occurs twice, with the equal product [p1] already in the table *)
Example C29_case : wf_spe elaw sx /\ every (aenv exenvof) sx /\ Forall (fun k => wf_spe elaw k /\ every (aenv exenvof) k) [p1] /\
  cache_duplicate_subtrees exhash sx [p1] = (sx, [sx; p3; y1; ax; p2; y2; dx; p1]).
Proof.
  assert (A : forall s : spQ, typed exnom exenvof s -> every (aenv exenvof) s) by (intros s T; eapply every_impl; [|exact T]; intros c; apply part_aenv).
  split; [exact sx_wf|]. split; [apply A, sx_typed|]. split; [|].
  - apply Forall_cons; [|apply Forall_nil]. split; [exact p1_wf|]. apply A. repeat split; exact env_num.
  - reflexivity.
Qed.

(** AtomicLeaf.__eq__ and __hash__ leave out the environment (src/spe.py:957-961).  Two atoms of
    X = 5 with Z = 2*X + 1 and with Z = 3*X are then shared, and the law of Z changes. *)
Definition Z3 : tr QS := TPoly X [0;3]%Q.
Definition env3 : tenv (N:=QS) := [("X", X); ("Z", Z3)].
Definition a2 : spQ := atm 5 exenv.
Definition a3 : spQ := atm 5 env3.
Definition sz2 : spQ := SumSPE (S:=LQ) [(a2, 1#2); (a3, 1#2)]%Q.
Lemma a3_wf : wf_spe elaw a3.
Proof.
  assert (L : forall x t, lookup x env3 = Some t -> (x = "X" /\ t = X) \/ (x = "Z" /\ t = Z3)).
  { intros x t H. unfold env3, lookup in H. destruct (String.eqb x "X") eqn:E1; [apply String.eqb_eq in E1; injection H as <-; auto|]. destruct (String.eqb x "Z") eqn:E2; [apply String.eqb_eq in E2; injection H as <-; auto|discriminate]. }
  split; [split|].
  - apply (built_ext "X" [("X", TId "X")] "Z" Z3); [constructor| |].
    + intros [H|[]]. discriminate.
    + intros s [<-|[]]. now left.
  - intros x t H. destruct (L x t H) as [(-> & ->)|(-> & ->)]; [split; exact Logic.I|split; [split|]; exact Logic.I].
  - intros w. cbn [den a3 atm]. apply ind_false. intros K. apply K. split; intros x t H; destruct (L x t H) as [(-> & ->)|(-> & ->)]; reflexivity || exact Logic.I.
Qed.
Definition zle : tr QS := EBasic KInt (TId "Z") (iv NInf (qn 12) true true).
Theorem C29_refuted : forall hash : spQ -> Z, hash a2 = hash a3 ->
  exists s t e m, wf_spe elaw s /\ gev e /\ cache_duplicate_subtrees hash s [] = (t, m) /\ prob elaw s e = / 2 /\ prob elaw t e = 1.
Proof.
  intros hash H. exists sz2, (SumSPE (S:=LQ) [(a2, 1#2); (a2, 1#2)]%Q), zle, [SumSPE (S:=LQ) [(a2, 1#2); (a2, 1#2)]%Q; a2].
  split; [apply sum2_wf; [exact ax_wf|exact a3_wf|reflexivity|reflexivity|reflexivity|reflexivity]|]. split; [apply gev_zlt|]. split; [|].
  - cbn [cache_duplicate_subtrees sz2 table_get find fst snd a2 a3 atm]. fold (atm 5 exenv) (atm 5 env3). fold a2 a3. unfold table_get. cbn [find]. rewrite H, Z.eqb_refl. reflexivity.
  - assert (P2 : ind (holds zle) (place "X" exenv w0 (FNum (toR (5%Q : num QS)))) = 1).
    { apply ind_true. unfold zle. rewrite holds_basic. eexists. split; [reflexivity|]. split; [exact Logic.I|]. cbn. repeat split; try lra. unfold Q2R; cbn; lra. }
    assert (P3 : ind (holds zle) (place "X" env3 w0 (FNum (toR (5%Q : num QS)))) = 0).
    { apply ind_false. unfold zle. rewrite holds_basic. intros (v & [= <-] & _ & K). cbn in K. destruct K as (_ & K). revert K. unfold Q2R; cbn; lra. }
    split; unfold prob, Pr; cbn [den sz2 map fst snd a2 a3 atm]; repeat change (sumR (?a :: ?l)) with (a + sumR l); change (sumR []) with 0; rewrite ?P2, ?P3; rewrite !lqP' by reflexivity; unfold Q2R; cbn; lra.
Qed.

(** ** C31: W = 2*Z - 3 added to [sx] *)
Definition W2 : tr QS := TPoly (N:=QS) (TId "Z") [-3; 2]%Q.
Definition exenvw : tenv (N:=QS) := [("X", X); ("Z", Z2); ("W", W2)].
Definition uxw : spQ := RealLeaf (D:=DQ) false "X" DUnif i01 false exenvw.
Definition dxw : spQ := RealLeaf (D:=DQ) true "X" (DFin dl) i03 false exenvw.
Definition axw : spQ := AtomicLeaf (N:=QS) "X" 5%Q exenvw.
Definition w1 : spQ := ProductSPE [uxw; y1].
Definition w2 : spQ := ProductSPE [dxw; y2].
Definition w3 : spQ := ProductSPE [axw; y1].
Definition sw : spQ := SumSPE (S:=LQ) [(w1, 1#2); (w2, 1#4); (w3, 1#4)]%Q.
(** identities for both expressions; the two atoms are told apart by their environments *)
Definition widx (s : spQ) : nat :=
  match s with
  | NominalLeaf _ ((_, q) :: _) => Pos.to_nat (Qden q)
  | AtomicLeaf _ _ env => 10 + List.length env
  | ProductSPE (AtomicLeaf _ _ env :: _) => 20 + List.length env
  | SumSPE ((ProductSPE (RealLeaf _ _ _ _ _ env :: _), _) :: _) => 25 + List.length env
  | _ => 30 + index [p1; p2; ux; dx; w1; w2; uxw; dxw] s
  end%nat.
Lemma all_distinct : forall (s : spQ), (forall a b, In a (parts s) -> In b (parts s) -> widx a = widx b -> a = b) -> distinct widx s.
Proof. intros s H a b Ha Hb E. apply within_in in Ha, Hb. auto. Qed.
Lemma sx_widx : distinct widx sx.
Proof.
  apply all_distinct. intros a b Ha Hb E. cbn [parts sx p1 p2 p3 flat_map fst ux dx ax y1 y2 app] in Ha, Hb.
  repeat (destruct Ha as [<-|Ha]; [repeat (destruct Hb as [<-|Hb]; [try reflexivity; discriminate E|]); contradiction|]); contradiction.
Qed.
Lemma sw_widx : distinct widx sw.
Proof.
  apply all_distinct. intros a b Ha Hb E. cbn [parts sw w1 w2 w3 flat_map fst uxw dxw axw y1 y2 app] in Ha, Hb.
  repeat (destruct Ha as [<-|Ha]; [repeat (destruct Hb as [<-|Hb]; [try reflexivity; discriminate E|]); contradiction|]); contradiction.
Qed.
Lemma usable_w : usable elaw sx W2.
Proof.
  split; [split; exact Logic.I|]. split; [exact Logic.I|]. intros w.
  apply (law_null_sub (den_kernel elaw sx sx_wf w) (fun w => ~ (is_num (w "X") /\ is_num (w "Z") /\ exists z, w "Y" = FStr z))); [apply sx_sorted|].
  intros a H K. apply H. destruct K as (_ & (z & Ez) & _). split; [|exact Logic.I]. cbn [teval W2]. rewrite Ez. discriminate.
Qed.
Example C31_case : wf_spe elaw sx /\ typed exnom exenvof sx /\ usable elaw sx W2 /\ transform sx "W" W2 = Ok sw /\ distinct widx sx /\ distinct widx sw /\ exnom "W" = false.
Proof. split; [exact sx_wf|]. split; [exact sx_typed|]. split; [exact usable_w|]. split; [reflexivity|]. split; [exact sx_widx|]. split; [exact sw_widx|reflexivity]. Qed.
Example C31_returns_case : usable elaw sx W2 /\ symbols W2 <> [] /\ ~ vars sx "W" /\ hosts sx W2 /\ vars sx "X" /\ transform sx "X" W2 = Raise AssertionError.
Proof.
  split; [exact usable_w|]. split; [discriminate|]. split; [intros K; apply (get_symbols_vars elaw sx) in K; cbn in K; intuition discriminate|]. split; [exact (transform_hosts sx "W" W2 sw eq_refl)|].
  split; [apply (get_symbols_vars elaw sx); now left|reflexivity].
Qed.
(** W < 1 on the new expression, 2*Z - 3 < 1 on the old one: both 3/8; an event on old variables *)
Definition set_w : pset QS := iv NInf (qn 1) true true.
Example C31_new_case : askable elaw exnom sx (EBasic KInt W2 set_w) /\ askable elaw exnom sw (EBasic KInt (TId "W") set_w) /\ askable elaw exnom sx exev /\
  fresh (logprob ioQ po 9 widx sx (EBasic KInt W2 set_w)) = Ok (3#8)%Q /\ fresh (logprob ioQ po 9 widx sw (EBasic KInt (TId "W") set_w)) = Ok (3#8)%Q /\
  fresh (logprob ioQ po 9 widx sx exev) = Ok (1#2)%Q /\ fresh (logprob ioQ po 9 widx sw exev) = Ok (1#2)%Q /\
  substitute ioQ po 9 9 [("W", W2)] (EBasic KInt (TId "W") set_w) = Ok (EBasic KInt W2 set_w).
Proof.
  destruct C31_case as (Wf & T & U & H & _). destruct (C31_law elaw sx "W" W2 sw Wf (typed_heavy exnom exenvof sx T) U H) as (Ww & _).
  assert (K1 : forall (t : tr QS) x, good t -> realv t -> symbols t = [x] -> exnom x = false -> plain t -> forall s, wf_spe elaw s -> askable elaw exnom s (EBasic KInt t set_w)).
  { intros t x G R E Nx P s Ws. split; [|split].
    - exact (good_int t NInf (qn 1) true true G R eq_refl).
    - apply surely_all; auto. intros w. apply plain_regular. cbn. split; [auto|discriminate].
    - apply sorts_kinds, Forall_forall. intros l [<-|[]]. apply sort_num; [discriminate|]. intros z. cbn [symbols]. rewrite E. intros [<-|[]]. exact Nx. }
  split; [apply (K1 W2 "Z"); try reflexivity; try exact sx_wf; repeat split; exact Logic.I|].
  split; [apply (K1 (TId "W") "W"); try reflexivity; try exact Ww; exact Logic.I|].
  split; [apply conditionable_askable, cond_exev|]. repeat split; reflexivity.
Qed.

(** ** C32: the variables before and after; a further product *)
Example C32_case : get_symbols sx = ["X"; "Z"; "Y"] /\ get_symbols sw = ["X"; "Z"; "W"; "Y"] /\ get_symbols tx = ["X"; "Z"; "Y"] /\
  exists u, spe_and sx (NominalLeaf "B" ws_b) = Ok u /\ get_symbols u = ["X"; "Z"; "Y"; "B"].
Proof. repeat split. eexists. split; reflexivity. Qed.
