(** Cases and refutations for C33 and C34 with comparisons of variables. *)
From Coq Require Import List Bool String Reals Lra Lia ZArith QArith Qabs Qreals.
From Verif Require Import Base Num Sets SetSpec SetIv SetProofs SetOr SetOps SetAlg SetBuilt
  Poly Trans TransSpec TransFacts PolyProofs InvProofs InvMain EvProofs ArithProofs PolyEx
  Dnf DnfSpec DnfProofs DnfUnion Logs Spe SpeSpec SpeFacts SpeRect LeafProofs LeafEvents LeafCond SpeCons LeafGiven MemoProofs PropTrans NormSorts LogprobProofs LogprobTop SpeEq SimplifyProofs CondTypes CondProofs CondTop PropSpe Uniform Instances SpeEx
  SpeOps OpsProofs BuildProofs TransformProofs PropCons ConsEx Same Prog ProgSpec ProgEvents ProgProofs PropProg ProgEx TotalSpec TotalSets PropTotal TotalUnion TotalGrid PropCondTotal TotalEx CondTotalEx ReturnSpec SwitchTotal ReturnProofs PropReturns.
Import ListNotations.
Local Open Scope R_scope.
Local Open Scope string_scope.

(** the interpreter with simplification *)
Definition runs_f (fuel : nat) : cmdQ -> option spQ -> res (option spQ) := interpret ioQ so_id po fuel exhash ids_of false.
Definition V3 (z : string) : Prop := vars pxy z \/ z = "V".
Lemma pxy_vars : forall z, vars pxy z <-> z = "X" \/ z = "Y".
Proof. intros z. cbn. intuition congruence. Qed.
(** the branches sample V *)
Lemma sample_branch : forall fuel (d : distribution (D:=DQ)) l (P : asg -> Prop) c', d "V" = Ok l -> wf_spe elaw l -> typed exnom no_env l -> (forall z, vars l z <-> z = "V") -> conditioned elaw exnom no_env pxy P c' ->
  exists t, runs_f fuel (samp "V" d) (Some c') = Ok (Some t) /\ joinable elaw false exnom no_env V3 false t.
Proof.
  intros fuel d l P c' Ed Wl Tl Vl (Wc & Tc & Vc & _). destruct (sample_returns ioQ so_id po fuel elaw exhash ids_of false exnom no_env (vars pxy) "V" d l c' Wc Tc Vc Ed Wl Tl Vl) as (t & Et & _ & J); [rewrite pxy_vars; intuition discriminate|]. exists t. auto.
Qed.
Lemma branch_u : forall fuel P c', conditioned elaw exnom no_env pxy P c' -> exists t, runs_f fuel (samp "V" dU) (Some c') = Ok (Some t) /\ joinable elaw false exnom no_env V3 false t.
Proof. intros fuel P c' H. apply (sample_branch fuel dU (lu "V") P c' eq_refl); [exact (lu_wf "V")|now apply lu_typed|apply sample_u; reflexivity|exact H]. Qed.
Lemma branch_d : forall fuel P c', conditioned elaw exnom no_env pxy P c' -> exists t, runs_f fuel (samp "V" dV) (Some c') = Ok (Some t) /\ joinable elaw false exnom no_env V3 false t.
Proof. intros fuel P c' H. apply (sample_branch fuel dV (ld "V") P c' eq_refl); [exact (ld_wf "V")|now apply ld_typed|apply sample_d; reflexivity|exact H]. Qed.
Lemma pxy_open : open_leaves exnom inner true pxy.
Proof. cbn. intuition discriminate. Qed.
Lemma pxy_steady : steady inner none pxy.
Proof. cbn. intuition discriminate. Qed.
Lemma direct_low4 : direct exnom inner none low4.
Proof. split; [apply (good_int X NInf (Fin (1#4)%Q) true false); exact Logic.I || reflexivity|]. constructor; [exact cmp_low4|constructor]. Qed.
Lemma direct_yina : direct exnom inner none yina.
Proof. split; [exact gev_yina|]. constructor; [|constructor]. exists KNom, "Y", (fn ["a"]). split; [reflexivity|]. right. exact Logic.I. Qed.
Definition bs_r : list (option (tr QS) * cmdQ) := [(Some low4, samp "V" dU); (Some yina, samp "V" dV); (None, Sequence [samp "V" dV; Skip])].
(** if X <= 1/4: V ~ uniform; elif Y << {'a'}: V ~ discrete; else: V ~ discrete *)
Example C33_returns_case : wf_spe elaw pxy /\ typed exnom no_env pxy /\ open_leaves exnom inner true pxy /\ steady inner none pxy /\ conditions_ok [low4; yina] (map fst bs_r) /\
  (forall e, In e [low4; yina] -> direct exnom inner none e /\ (forall x, In x (symbols e) -> own pxy x) /\ Forall nonvoid (lits e)) /\ surely elaw pxy (fun a => exists b, In b bs_r /\ test (fst b) a) /\
  (forall P c, In (P, c) (firsts (cases_of bs_r)) -> 0 < Pr elaw pxy P -> even P pxy) /\ branches_run ioQ so_id po elaw exhash ids_of false exnom no_env no_env V3 false pxy (cases_of bs_r) /\
  exists t, runs_f 20 (IfElse bs_r) (Some pxy) = Ok (Some t).
Proof.
  split; [exact pxy_wf|]. split; [exact pxy_typed|]. split; [exact pxy_open|]. split; [exact pxy_steady|]. split; [split; [discriminate|right; reflexivity]|]. split.
  { intros e [<-|[<-|[]]]; [split; [exact direct_low4|]|split; [exact direct_yina|]]; (split; [intros x [<-|[]]; cbn; auto|constructor; [exact Logic.I|constructor]]). }
  split; [apply else_covers; [exact pxy_wf|cbn; auto]|]. split; [intros P c _ _; exact Logic.I|]. split; [|apply okopt_ok; vm_compute; reflexivity].
  exists 0%nat. intros fuel P c c' _ Hc Hc'. apply (in_map snd) in Hc. rewrite firsts_snd in Hc. cbn in Hc. destruct Hc as [<-|[<-|[<-|[]]]]; [exact (branch_u fuel P c' Hc')|exact (branch_d fuel P c' Hc')|].
  destruct (branch_d fuel P c' Hc') as (t & Et & J). exists t. split; auto. unfold runs_f in Et. cbn [interpret samp runs] in *. rewrite Et. reflexivity.
Qed.
(** with a derived variable: p1 of SpeEx.v has X, Y and Z = 2*X + 1 *)
Definition V4 (z : string) : Prop := vars p1 z \/ z = "V".
Lemma p1_typed0 : typed exnom no_env p1.
Proof.
  split; [exact Logic.I|]. split; [split; [|exact Logic.I]; exact env_num|]. split; [split; [reflexivity|exact Logic.I]|exact Logic.I].
Qed.
Lemma branch4 : forall fuel (d : distribution (D:=DQ)) l (P : asg -> Prop) c', d "V" = Ok l -> wf_spe elaw l -> typed exnom no_env l -> (forall z, vars l z <-> z = "V") -> conditioned elaw exnom no_env p1 P c' ->
  exists t, runs_f fuel (samp "V" d) (Some c') = Ok (Some t) /\ joinable elaw false exnom no_env V4 false t.
Proof.
  intros fuel d l P c' Ed Wl Tl Vl (Wc & Tc & Vc & _). destruct (sample_returns ioQ so_id po fuel elaw exhash ids_of false exnom no_env (vars p1) "V" d l c' Wc Tc Vc Ed Wl Tl Vl) as (t & Et & _ & J); [cbn; intuition discriminate|]. exists t. auto.
Qed.
Example C33_derived_case : wf_spe elaw p1 /\ typed exnom no_env p1 /\ open_leaves exnom inner true p1 /\ steady inner none p1 /\ conditions_ok [low4; yina] (map fst bs_r) /\
  (forall e, In e [low4; yina] -> direct exnom inner none e /\ (forall x, In x (symbols e) -> own p1 x) /\ Forall nonvoid (lits e)) /\ surely elaw p1 (fun a => exists b, In b bs_r /\ test (fst b) a) /\
  (forall P c, In (P, c) (firsts (cases_of bs_r)) -> 0 < Pr elaw p1 P -> even P p1) /\ branches_run ioQ so_id po elaw exhash ids_of false exnom no_env no_env V4 false p1 (cases_of bs_r) /\
  V4 "Z" /\ exists t, runs_f 20 (IfElse bs_r) (Some p1) = Ok (Some t).
Proof.
  split; [exact p1_wf|]. split; [exact p1_typed0|]. split; [cbn; intuition discriminate|]. split; [cbn; intuition discriminate|]. split; [split; [discriminate|right; reflexivity]|]. split.
  { intros e [<-|[<-|[]]]; [split; [exact direct_low4|]|split; [exact direct_yina|]]; (split; [intros x [<-|[]]; cbn; auto|constructor; [exact Logic.I|constructor]]). }
  split; [apply else_covers; [exact p1_wf|cbn; auto]|]. split; [intros P c _ _; exact Logic.I|]. split; [|split; [left; cbn; tauto|apply okopt_ok; vm_compute; reflexivity]].
  assert (Bd : forall fuel P c', conditioned elaw exnom no_env p1 P c' -> exists t, runs_f fuel (samp "V" dV) (Some c') = Ok (Some t) /\ joinable elaw false exnom no_env V4 false t).
  { intros fuel P c' H. apply (branch4 fuel dV (ld "V") P c' eq_refl); [exact (ld_wf "V")|now apply ld_typed|apply sample_d; reflexivity|exact H]. }
  exists 0%nat. intros fuel P c c' _ Hc Hc'. apply (in_map snd) in Hc. rewrite firsts_snd in Hc. cbn in Hc. destruct Hc as [<-|[<-|[<-|[]]]].
  - apply (branch4 fuel dU (lu "V") P c' eq_refl); [exact (lu_wf "V")|now apply lu_typed|apply sample_u; reflexivity|exact Hc'].
  - exact (Bd fuel P c' Hc').
  - destruct (Bd fuel P c' Hc') as (t & Et & J). exists t. split; auto. unfold runs_f in Et. cbn [interpret samp runs] in *. rewrite Et. reflexivity.
Qed.
(** X < 1/4; X == 1/4; X > 1/4 *)
Definition vs_x : list (sval (N:=QS)) := [VSet (iv NInf (Fin (1#4)%Q) true true); VReal (N:=QS) (1#4)%Q; VSet (iv (Fin (1#4)%Q) PInf true true)].
Definition f_x : nat -> sval (N:=QS) -> cmdQ := fun n _ => if Nat.eqb n 0 then samp "V" dU else samp "V" dV.
Lemma in_num : forall (a b : ext (num QS)) lo ro r, fm (N:=QS) (FNum r) (iv a b lo ro) <-> in_iv (mkIv (N:=QS) a b lo ro) (FNum r).
Proof. reflexivity. Qed.
Lemma vs_x_plain : Forall (plain_case exnom inner "X") vs_x.
Proof.
  assert (Q : forall r, eR (N:=QS) (Fin (1#4)%Q) = Fin r -> inner "X" r) by (intros r E; injection E as <-; unfold inner; cbn; unfold Q2R; cbn; lra).
  repeat apply Forall_cons; [| | |constructor]; (split; [|intros _]).
  - split; [split; [exact Logic.I|split; [reflexivity|discriminate]]|]. split; [discriminate|exact Logic.I].
  - intros r [E|E]; [discriminate|exact (Q r E)].
  - reflexivity.
  - unfold inner. cbn. unfold Q2R; cbn. lra.
  - split; [split; [exact Logic.I|split; [discriminate|reflexivity]]|]. split; [discriminate|exact Logic.I].
  - intros r [E|E]; [exact (Q r E)|discriminate].
Qed.
Lemma below_4 : forall w, matches "X" (VSet (iv NInf (Fin (1#4)%Q) true true)) w <-> exists r, w "X" = FNum r /\ r < 1/4.
Proof.
  intros w. cbn [matches]. split.
  - destruct (w "X") as [r|s]; [|intros []]. intros (_ & H). exists r. split; [reflexivity|]. cbn in H. unfold Q2R in H; cbn in H. lra.
  - intros (r & -> & H). split; cbn; try exact Logic.I. unfold Q2R; cbn. lra.
Qed.
Lemma above_4 : forall w, matches "X" (VSet (iv (Fin (1#4)%Q) PInf true true)) w <-> exists r, w "X" = FNum r /\ 1/4 < r.
Proof.
  intros w. cbn [matches]. split.
  - destruct (w "X") as [r|s]; [|intros []]. intros (H & _). exists r. split; [reflexivity|]. cbn in H. unfold Q2R in H; cbn in H. lra.
  - intros (r & -> & H). split; cbn; try exact Logic.I. unfold Q2R; cbn. lra.
Qed.
Lemma at_4 : forall w, matches (N:=QS) "X" (VReal (N:=QS) (1#4)%Q) w <-> exists r, w "X" = FNum r /\ r = 1/4.
Proof.
  intros w. cbn [matches]. change (toR (n:=QS) (1#4)%Q) with (Q2R (1#4)). replace (Q2R (1#4)) with (1/4) by (unfold Q2R; cbn; lra). split; [intros E; eauto|]. intros (r & E & ->). exact E.
Qed.
Lemma vs_x_separate : ForallOrdPairs (separate (N:=QS) exnom "X") vs_x.
Proof.
  assert (K : forall w, (exists r, w "X" = FNum r /\ r < 1/4) -> (exists r, w "X" = FNum r /\ 1/4 < r) -> False) by (intros w (r & E & H) (q & E' & H'); rewrite E in E'; injection E' as <-; lra).
  assert (K' : forall w, (exists r, w "X" = FNum r /\ r = 1/4) -> (exists r, w "X" = FNum r /\ 1/4 < r) -> False) by (intros w (r & E & H) (q & E' & H'); rewrite E in E'; injection E' as <-; lra).
  constructor; [|constructor; [|constructor; [constructor|constructor]]]; repeat apply Forall_cons; try apply Forall_nil; intros _.
  - left. eauto.
  - right. intros w A B. apply below_4 in A. apply above_4 in B. exact (K w A B).
  - right. intros w A B. apply at_4 in A. apply above_4 in B. exact (K' w A B).
Qed.
Example C34_returns_case : wf_spe elaw pxy /\ typed exnom no_env pxy /\ open_leaves exnom inner true pxy /\ steady inner none pxy /\ own pxy "X" /\ Forall (plain_case exnom inner "X") vs_x /\ ForallOrdPairs (separate exnom "X") vs_x /\
  surely elaw pxy (fun a => exists v, In v vs_x /\ matches "X" v a) /\ (forall P c, In (P, c) (firsts (cases_on "X" vs_x f_x)) -> 0 < Pr elaw pxy P -> even P pxy) /\
  branches_run ioQ so_id po elaw exhash ids_of false exnom no_env no_env V3 false pxy (cases_on "X" vs_x f_x) /\ exists t, runs_f 20 (Switch "X" vs_x f_x) (Some pxy) = Ok (Some t).
Proof.
  split; [exact pxy_wf|]. split; [exact pxy_typed|]. split; [exact pxy_open|]. split; [exact pxy_steady|]. split; [left; reflexivity|]. split; [exact vs_x_plain|]. split; [exact vs_x_separate|]. split.
  { apply (surely_imp pxy _ _ pxy_wf (sorted_vars no_env pxy pxy_wf pxy_typed)). intros a Ha. destruct (sort_numv "X" (a "X") eq_refl) as (r & Er); [apply Ha, pxy_vars; auto|].
    destruct (Rtotal_order r (1/4)) as [H|[H|H]]; [exists (VSet (iv NInf (Fin (1#4)%Q) true true))|exists (VReal (N:=QS) (1#4)%Q)|exists (VSet (iv (Fin (1#4)%Q) PInf true true))]; (split; [cbn; auto|]); [apply below_4|apply at_4|apply above_4]; eauto. }
  split; [intros P c _ _; exact Logic.I|]. split; [|apply okopt_ok; vm_compute; reflexivity].
  exists 0%nat. intros fuel P c c' _ Hc Hc'. apply (in_map snd) in Hc. rewrite firsts_snd in Hc. cbn [snd] in Hc. destruct Hc as [<-|[<-|[<-|[]]]]; [exact (branch_u fuel P c' Hc')|exact (branch_d fuel P c' Hc')..].
Qed.

(** Two disjoint cases that cover a variable with values 0, 2 and 3: the second is split by the
    first into two sets of numbers, and making their union fails. *)
Theorem C34_returns_refuted : exists (s : spQ) x vs, wf_spe elaw s /\ typed exnom no_env s /\ vars s x /\ Forall (case_ok exnom x) vs /\
  surely elaw s (fun a => exists v, In v vs /\ matches x v a) /\ (forall u v w, In u vs -> In v vs -> matches x u w -> matches x v w -> u = v) /\
  forall fuel, interpret ioQ so_id po fuel exhash ids_of false (Switch x vs (fun _ _ => Skip)) (Some s) = Raise AssertionError.
Proof.
  exists (ld "X"), "X", [VReal (N:=QS) 2%Q; VSet (fr [qn 0; qn 3])]. split; [exact (ld_wf "X")|]. split; [now apply ld_typed|]. split; [cbn; auto|]. split.
  { apply Forall_cons; [reflexivity|]. apply Forall_cons; [|apply Forall_nil]. split; [split; [|discriminate]|split; [discriminate|exact Logic.I]]. constructor; [|repeat constructor; intros []]. intros [E|[]]. injection E as E. unfold Q2R in E; cbn in E. lra. }
  split.
  { intros w. cbn [den ld leaf]. cbn [real_law elaw dl map sumR fold_right fst snd].
    rewrite !ind_false; [ring| | |]; intros K; apply K; [exists (VSet (fr [qn 0; qn 3]))|exists (VReal (N:=QS) 2%Q)|exists (VSet (fr [qn 0; qn 3]))]; (split; [cbn; auto|]); cbn.
    - exists (qn 3). split; auto. cbn. f_equal. unfold Q2R; cbn. lra.
    - f_equal. unfold Q2R; cbn. lra.
    - exists (qn 0). split; auto. cbn. f_equal. unfold Q2R; cbn. lra. }
  split.
  { assert (Z : forall w, matches (N:=QS) "X" (VReal (N:=QS) 2%Q) w -> matches "X" (VSet (fr [qn 0; qn 3])) w -> False).
    { intros w E K. cbn [matches] in E, K. rewrite E in K. destruct K as (y & [<-|[<-|[]]] & K); injection K as K; unfold Q2R in K; cbn in K; lra. }
    intros u v w [<-|[<-|[]]] [<-|[<-|[]]] A B; auto; exfalso; eauto. }
  intros fuel. reflexivity.
Qed.

Definition all_return_properties := (@C33_returns_partial, @C34_returns_partial, @C34_returns_refuted).
Print Assumptions all_return_properties.
