(** Cases and refutations for C40. *)
From Coq Require Import List Bool String DecimalString Reals Lra Lia ZArith QArith Qabs Qreals FunctionalExtensionality.
From Verif Require Import Base Num Sets SetSpec SetIv SetProofs SetOr SetOps SetAlg SetBuilt
  Poly Trans TransSpec TransFacts PolyProofs InvProofs InvMain EvProofs ArithProofs PolyEx
  Dnf DnfSpec DnfProofs DnfUnion Logs Spe SpeSpec SpeFacts SpeRect LeafProofs LeafEvents LeafCond SpeCons LeafGiven MemoProofs PropTrans NormSorts LogprobProofs LogprobTop SpeEq SimplifyProofs CondTypes CondProofs CondTop PropSpe Uniform Instances SpeEx
  SpeOps OpsProofs BuildProofs TransformProofs PropCons ConsEx Same Prog ProgSpec ProgEvents ProgProofs PropProg ProgEx Source SourceSpec SourceEx
  Render RenderSpec RenderCode RenderFits RenderVisit RenderShow PropRender.
Import ListNotations.
Local Open Scope R_scope.
Local Open Scope string_scope.

(** ** Names, numbers and distributions *)
Definition rnom (x : string) : bool := String.eqb x "Y" || String.prefix "branch_var_" x.
Definition q_of (e : exprQ) : Q := match e with XBin BDiv (XNum a) (XNum b) => (Qnum a # Z.to_pos (Qnum b))%Q | _ => 0%Q end.
Definition rdeval (g : envQ) (e : exprQ) : res (distribution (N:=QS) (D:=DQ)) :=
  match e with
  | XCall f args _ =>
    if String.eqb f "uniform" then Ok dU else if String.eqb f "randint" then Ok dV
    else match args with [XCall "dict" [] kws] => Ok (choice (N:=QS) (D:=DQ) (map (fun p => (fst p, q_of (snd p))) kws)) | _ => Raise TypeError end
  | _ => Raise TypeError
  end.
Definition rname (d : dist DQ) : string := match d with DUnif => "uniform" | DFin _ => "randint" end.
Definition rkwds (d : dist DQ) : list (string * num QS) := match d with DUnif => [("loc", 0%Q); ("scale", 1%Q)] | DFin _ => [("low", 0%Q); ("high", 4%Q)] end.
Definition rlexp (w : lg LQ) : Q := Qabs w.
Definition r_is_e (q : num QS) : bool := false.
Notation rrender := (render_sppl (N:=QS) (S:=LQ) (D:=DQ) r_is_e number_text rname rkwds rlexp).
Notation r_renderable := (renderable (N:=QS) (S:=LQ) (D:=DQ) ioQ po 9 ex_isdist ex_call rdeval elaw r_is_e number_text rname rkwds).
Notation r_command := (the_command (N:=QS) (D:=DQ) ioQ po 9 ex_call rdeval ex_aeval).
Lemma r_choice : forall (g : envQ) ws, NoDup (map fst ws) -> rdeval g (choice_expr (N:=QS) ws) = Ok (choice ws).
Proof.
  intros g ws _. cbn [rdeval choice_expr String.eqb Ascii.eqb Bool.eqb]. f_equal. f_equal. rewrite map_map. rewrite <- (map_id ws) at 2. apply map_ext. intros (x, (a, b)). reflexivity.
Qed.
Lemma r_lexp : forall w : lg LQ, Q2R (rlexp w) = toP w.
Proof. reflexivity. Qed.
Lemma r_nominal : forall n, rnom (branch_var n) = true.
Proof. intros n. unfold rnom. apply orb_true_iff. right. unfold branch_var. generalize (nat_text n). intros s. cbn. destruct s; reflexivity. Qed.
Lemma plain_at : forall x, String.index 0 "[" x = None -> String.prefix "b" x = false -> plain_name x.
Proof. intros x H P. split; auto. intros n ->. revert P. unfold branch_var. cbn. discriminate. Qed.

(** ** An expression: Z is X**2 + 3, the first X is uniform given X < 1/2, the second Y is a mixture *)
Definition Z3 : tr QS := TPoly X [3;0;1]%Q.
Definition renv : tenv (N:=QS) := [("X", X); ("Z", Z3)].
Definition half : interval QS := mkIv (qn 0) (qn (1#2)) false true.
Definition rx1 : spQ := RealLeaf (D:=DQ) false "X" DUnif half true renv.
Definition rx2 : spQ := RealLeaf (D:=DQ) true "X" (DFin dl) i03 false renv.
Definition ry : spQ := SumSPE (S:=LQ) [(y1, 1#3); (y2, 2#3)]%Q.
Definition rs : spQ := SumSPE (S:=LQ) [(ProductSPE [rx1; y1], 1#4); (ProductSPE [rx2; ry], 3#4)]%Q.

Section Leaves.
  Context (e : tr QS) (Ge : good e) (Re : realv e) (Se : symbols e = ["X"]).
  Definition env_of : tenv (N:=QS) := [("X", X); ("Z", e)].
  Lemma env_of_lookup : forall x t, Trans.lookup x env_of = Some t -> (x = "X" /\ t = X) \/ (x = "Z" /\ t = e).
  Proof.
    intros x t H. unfold env_of, Trans.lookup in H. destruct (String.eqb x "X") eqn:E1; [apply String.eqb_eq in E1; injection H as <-; auto|]. destruct (String.eqb x "Z") eqn:E2; [apply String.eqb_eq in E2; injection H as <-; auto|discriminate].
  Qed.
  Lemma env_of_ok : env_ok "X" env_of.
  Proof.
    split.
    - apply (built_ext "X" [("X", TId "X")] "Z" e); [constructor| |].
      + intros [H|[]]. discriminate.
      + rewrite Se. intros s [<-|[]]. now left.
    - intros x t H. destruct (env_of_lookup x t H) as [(-> & ->)|(-> & ->)]; [split; exact Logic.I|split; auto].
  Qed.
  Lemma leaf_of_wf : forall disc d supp (cond : bool), wf_iv supp -> (disc = true -> disc_supp (D:=DQ) elaw d supp) -> dist_ok (D:=DQ) elaw disc d ->
    (if cond then 0 < elaw d (ind (in_iv supp)) else elaw d (ind (in_iv supp)) = 1) -> (forall w v, in_iv supp v -> env_fine env_of (place "X" env_of w v)) ->
    wf_leaf elaw (RealLeaf (D:=DQ) disc "X" d supp cond env_of).
  Proof.
    intros disc d supp cond W Ds Dk Hc F. refine (conj W (conj Ds (conj Dk (conj Hc (conj env_of_ok _))))). intros w. cbn [den].
    assert (K : forall v, ~ ~ in_iv supp v -> ind (fun w => ~ env_fine env_of w) (place "X" env_of w v) = 0) by (intros v Hv; apply ind_false; intros K; apply K, F; destruct (dec (in_iv supp v)); tauto).
    unfold real_law. destruct cond.
    - replace (fun v => ind (fun w => ~ env_fine env_of w) (place "X" env_of w v) * ind (in_iv supp) v) with (fun _ : fval => 0).
      + rewrite (law_const (d_law _ _ _ Dk)). unfold Rdiv. ring.
      + extensionality v. destruct (dec (in_iv supp v)) as [H|H]; [rewrite K by tauto; ring|rewrite (ind_false _ (in_iv supp)) by auto; ring].
    - apply (law_null (d_law _ _ _ Dk) _ _ (law_full (d_law _ _ _ Dk) _ Hc)); [auto with bnd|exact K].
  Qed.
End Leaves.
Lemma z3_fine : forall supp w v, in_iv (N:=QS) supp v -> env_fine renv (place "X" renv w v).
Proof.
  intros supp w v H. destruct v as [r|]; [|destruct H]. split; intros x t E; destruct (env_of_lookup Z3 x t E) as [(-> & ->)|(-> & ->)]; reflexivity || exact Logic.I.
Qed.

Lemma half_pos : 0 < elaw DUnif (ind (in_iv half)).
Proof.
  pose proof (unif_cdf (Fin (1/4))) as C1. pose proof (unif_cdf (Fin 0)) as C0. cbn [clamp] in *. rewrite Rmax_right, Rmin_right in C1 by lra. rewrite Rmax_left, Rmin_right in C0 by lra.
  apply Rlt_le_trans with (unif (ind (at_most (Fin (1/4)))) - unif (ind (at_most (Fin 0)))); [lra|]. rewrite <- (law_minus unif_law) by auto with bnd. apply (law_mono unif_law); auto with bnd.
  intros v. destruct (dec (at_most (Fin (1/4)) v)) as [A1|A1].
  - rewrite (ind_true _ (at_most (Fin (1/4)))) by auto. destruct (dec (at_most (Fin 0) v)) as [A0|A0]; [rewrite ind_true by auto; pose proof (ind_01 _ (in_iv half) v); lra|].
    rewrite (ind_true _ (in_iv half)); [rewrite ind_false by auto; lra|]. destruct A1 as (r & -> & A1). apply ele_fin in A1. assert (0 < r) by (apply Rnot_le_lt; intros Hr; apply A0; exists r; split; auto; now apply ele_fin).
    apply in_iv_num. cbn. unfold Q2R; cbn. lra.
  - rewrite (ind_false _ (at_most (Fin (1/4)))) by auto. pose proof (ind_01 _ (in_iv half) v). pose proof (ind_01 _ (at_most (Fin 0)) v). lra.
Qed.
Lemma disc_i03 : forall d, disc_supp (D:=DQ) elaw d i03.
Proof. intros d. apply disc_01; [reflexivity|exists 0%Z; split; [apply Q2R_int|lia]|exists 3%Z; apply Q2R_int]. Qed.
Lemma full_i03 : elaw (DFin dl) (ind (in_iv i03)) = 1.
Proof. cbn [elaw dl map sumR fold_right fst snd]. rewrite !ind_true; [unfold Q2R; cbn; lra| | |]; apply in_iv_num; cbn; unfold Q2R; cbn; lra. Qed.
Lemma full_i01 : elaw DUnif (ind (in_iv i01)) = 1.
Proof. apply unif_supp. intros r H. apply in_iv_num. cbn. unfold Q2R; cbn. lra. Qed.
Lemma rx1_wf : wf_leaf elaw rx1.
Proof.
  apply (leaf_of_wf Z3); [split; exact Logic.I|exact Logic.I|reflexivity|now apply iv_wf|discriminate|exact unif_dist|exact half_pos|apply z3_fine].
Qed.
Lemma rx2_wf : wf_leaf elaw rx2.
Proof.
  apply (leaf_of_wf Z3); [split; exact Logic.I|exact Logic.I|reflexivity|now apply iv_wf|intros _; apply disc_i03|apply fin_dist, dl_ok|exact full_i03|apply z3_fine].
Qed.
Lemma ry_wf : wf_spe elaw ry.
Proof.
  split; [cbn [All fst]; repeat split; try apply y_wf; easy|]. split.
  - cbn [map sumR fold_right snd]. rewrite !lqP' by reflexivity. unfold Q2R; cbn. lra.
  - intros c d [<-|[<-|[]]] [<-|[<-|[]]] x H; exact H.
Qed.
Lemma rs_wf : wf_spe elaw rs.
Proof.
  split; [cbn [All fst]; split; [|split; [|exact Logic.I]]|split].
  - apply prod_wf; [exact rx1_wf|apply y_wf; easy|]. apply leaf_apart, SpeEx.env_vars.
  - apply prod_wf; [exact rx2_wf|exact ry_wf|]. intros z Hz Hy. cbn in Hy. subst z. destruct (SpeEx.env_vars _ Hz); discriminate.
  - cbn [map sumR fold_right snd]. rewrite !lqP' by reflexivity. unfold Q2R; cbn. lra.
  - intros c d [<-|[<-|[]]] [<-|[<-|[]]] x H; exact H.
Qed.
Lemma rs_typed : typed (D:=DQ) rnom no_env rs.
Proof.
  split.
  - repeat constructor; cbn [snd]; rewrite lqP' by reflexivity; unfold Q2R; cbn; lra.
  - repeat split; try (intros z [<-|[<-|[]]]; reflexivity). repeat constructor; cbn [snd]; rewrite lqP' by reflexivity; unfold Q2R; cbn; lra.
Qed.
Lemma z3_printable : printable ex_isdist r_is_e Z3.
Proof.
  split; [split; [now apply plain_at|reflexivity]|]. split; [left; unfold coeff; cbn; unfold Q2R; cbn; lra|]. split; [exists 2%nat|exists 0%nat]; (split; [lia|]); unfold coeff; cbn; unfold Q2R; cbn; lra.
Qed.
Lemma u_reads : dist_reads ex_isdist rdeval elaw rname rkwds false DUnif.
Proof. split; [reflexivity|]. split; [discriminate|]. exists i01. split; [now apply iv_wf|]. split; [discriminate|]. split; [exact full_i01|reflexivity]. Qed.
Lemma d_reads : dist_reads ex_isdist rdeval elaw rname rkwds true (DFin dl).
Proof. split; [reflexivity|]. split; [discriminate|]. exists i03. split; [now apply iv_wf|]. split; [intros _; apply disc_i03|]. split; [exact full_i03|reflexivity]. Qed.
Lemma rs_renderable : r_renderable rs.
Proof.
  assert (E : Forall (fun p => shows ioQ po 9 ex_isdist ex_call r_is_e number_text (snd p)) (tl renv)) by (constructor; [|constructor]; apply C40_printable_shows; [exact z3_printable|split; exact Logic.I]).
  assert (Py : plain_name "Y") by now apply plain_at.
  assert (Px : forall y, In y (map fst renv) -> plain_name y) by (intros y [<-|[<-|[]]]; now apply plain_at).
  split; [|split; [|exact Logic.I]].
  - split; [|split; [exact Py|exact Logic.I]]. split; [exact Px|]. split; [exact u_reads|]. split; [intros _; left; discriminate|exact E].
  - split; [|split; [|exact Logic.I]].
    + split; [exact Px|]. split; [exact d_reads|]. split; [discriminate|exact E].
    + split; [exact Py|]. split; [exact Py|exact Logic.I].
Qed.
(** the program that is written:
<<
from sppl.distributions import *
branch_var_0 ~= choice({'0': 1/4, '1': 3/4})
branch_var_1 ~= choice({'0': 1/3, '1': 2/3})
if branch_var_0 == '0':
  X ~= uniform(loc=0, scale=1); condition((0 <= X) < 1/2); Z ~= 3 + (X)**2; Y ~= choice(...)
elif branch_var_0 == '1':
  X ~= randint(low=0, high=4); Z ~= 3 + (X)**2
  if branch_var_1 == '0': Y ~= choice(...)
  elif branch_var_1 == '1': Y ~= choice(...)
>> *)
Definition isok {A} (r : res A) : bool := match r with Ok _ => true | Raise _ => false end.
Lemma got_ok : forall A (d : A) (r : res A), isok r = true -> r = Ok (got d r).
Proof. intros A d [a|e] H; [reflexivity|discriminate]. Qed.
Definition israise {A} (e : exn) (r : res A) : bool := match r, e with Raise TypeError, TypeError | Raise KeyError, KeyError | Raise AssertionError, AssertionError => true | _, _ => false end.
Lemma israise_ok : forall A e (r : res A), israise e r = true -> r = Raise e.
Proof. intros A e [a|[]] H; destruct e; try discriminate; reflexivity. Qed.
Ltac works := apply got_ok; vm_compute; reflexivity.
Definition rp : list stmtQ := got [] (rrender rs).
Definition rtr := got (vs_init, []) (ex_translate 30 rp).
Definition rg : envQ := got [] (module_env ioQ po 9 ex_call (fst rtr)).
Definition rc : cmdQ := got (Sequence []) (r_command rg (snd rtr)).
Lemma run_rc : okopt (ProgEx.run rc None) = true.
Proof. vm_compute. reflexivity. Qed.
Definition rt : spQ := match ProgEx.run rc None with Ok (Some t) => t | _ => rs end.
Example C40_roundtrip_case : wf_spe elaw rs /\ r_renderable rs /\ typed rnom no_env rs /\
  (ex_isdist "choice" = true /\ (forall g ws, NoDup (map fst ws) -> rdeval g (choice_expr ws) = Ok (choice ws)) /\ (forall w, Q2R (rlexp w) = toP w) /\ (forall n, rnom (branch_var n) = true) /\ (forall s, distinct (ids_of s) s)) /\
  rrender rs = Ok rp /\ ex_translate 30 rp = Ok rtr /\ module_env ioQ po 9 ex_call (fst rtr) = Ok rg /\ r_command rg (snd rtr) = Ok rc /\ ProgEx.run rc None = Ok (Some rt).
Proof.
  split; [exact rs_wf|]. split; [exact rs_renderable|]. split; [exact rs_typed|]. split; [split; [reflexivity|]; split; [exact r_choice|]; split; [exact r_lexp|]; split; [exact r_nominal|exact ids_distinct]|].
  split; [works|]. split; [works|]. split; [works|]. split; [works|]. destruct (okopt_ok _ _ run_rc) as (t & Et). unfold rt. rewrite Et. reflexivity.
Qed.

(** Z is X**2 + 3; X is uniform on [0, 1/2) in the first case, and on [0, 1] in the second. *)
Definition fx : spQ := RealLeaf (D:=DQ) false "X" DUnif i01 false renv.
Definition fs : spQ := SumSPE (S:=LQ) [(ProductSPE [rx1; y1], 1#4); (ProductSPE [fx; ry], 3#4)]%Q.
Definition fder (x : string) : bool := String.eqb x "Z".
Definition fcuts (x : string) (r : R) : Prop := x = "X" /\ (r = 0 \/ r = 1/2).
Lemma fx_wf : wf_leaf elaw fx.
Proof.
  apply (leaf_of_wf Z3); [split; exact Logic.I|exact Logic.I|reflexivity|now apply iv_wf|discriminate|exact unif_dist|exact full_i01|apply z3_fine].
Qed.
Lemma fs_wf : wf_spe elaw fs.
Proof.
  split; [cbn [All fst]; split; [|split; [|exact Logic.I]]|split].
  - apply prod_wf; [exact rx1_wf|apply y_wf; easy|]. apply leaf_apart, SpeEx.env_vars.
  - apply prod_wf; [exact fx_wf|exact ry_wf|]. intros z Hz Hy. cbn in Hy. subst z. destruct (SpeEx.env_vars _ Hz); discriminate.
  - cbn [map sumR fold_right snd]. rewrite !lqP' by reflexivity. unfold Q2R; cbn. lra.
  - intros c d [<-|[<-|[]]] [<-|[<-|[]]] x H; exact H.
Qed.
Lemma fs_typed : typed (D:=DQ) rnom no_env fs.
Proof.
  split.
  - repeat constructor; cbn [snd]; rewrite lqP' by reflexivity; unfold Q2R; cbn; lra.
  - repeat split; try (intros z [<-|[<-|[]]]; reflexivity). repeat constructor; cbn [snd]; rewrite lqP' by reflexivity; unfold Q2R; cbn; lra.
Qed.
Lemma fs_renderable : r_renderable fs.
Proof.
  assert (E : Forall (fun p => shows ioQ po 9 ex_isdist ex_call r_is_e number_text (snd p)) (tl renv)) by (constructor; [|constructor]; apply C40_printable_shows; [exact z3_printable|split; exact Logic.I]).
  assert (Py : plain_name "Y") by now apply plain_at.
  assert (Px : forall y, In y (map fst renv) -> plain_name y) by (intros y [<-|[<-|[]]]; now apply plain_at).
  split; [|split; [|exact Logic.I]].
  - split; [|split; [exact Py|exact Logic.I]]. split; [exact Px|]. split; [exact u_reads|]. split; [intros _; left; discriminate|exact E].
  - split; [|split; [|exact Logic.I]].
    + split; [exact Px|]. split; [exact u_reads|]. split; [discriminate|exact E].
    + split; [exact Py|]. split; [exact Py|exact Logic.I].
Qed.
Lemma fs_flat : flat fder fcuts fs.
Proof.
  assert (D : forall y, In y (map fst (tl renv)) -> fder y = true) by (intros y [<-|[]]; reflexivity).
  split; [|split; [|exact Logic.I]].
  - split; [|split; [reflexivity|exact Logic.I]]. split; [reflexivity|]. split; [exact D|]. split; [|discriminate]. intros _ r [E|E]; injection E as <-; (split; [reflexivity|]); [left|right]; unfold Q2R; cbn; lra.
  - split; [|split; [split; [reflexivity|split; [reflexivity|exact Logic.I]]|exact Logic.I]]. split; [reflexivity|]. split; [exact D|]. split; discriminate.
Qed.
Lemma fder_branch : forall n, fder (branch_var n) = false.
Proof. reflexivity. Qed.
Definition fp : list stmtQ := got [] (rrender fs).
Definition ftr := got (vs_init, []) (ex_translate 30 fp).
Definition fg : envQ := got [] (module_env ioQ po 9 ex_call (fst ftr)).
Definition fc : cmdQ := got (Sequence []) (r_command fg (snd ftr)).
Example C40_runs_case : wf_spe elaw fs /\ r_renderable fs /\ typed rnom no_env fs /\ flat fder fcuts fs /\ (forall n, fder (branch_var n) = false) /\
  rrender fs = Ok fp /\ ex_translate 30 fp = Ok ftr /\ module_env ioQ po 9 ex_call (fst ftr) = Ok fg /\ r_command fg (snd ftr) = Ok fc /\ exists t, ProgEx.run fc None = Ok (Some t).
Proof.
  split; [exact fs_wf|]. split; [exact fs_renderable|]. split; [exact fs_typed|]. split; [exact fs_flat|]. split; [exact fder_branch|].
  split; [works|]. split; [works|]. split; [works|]. split; [works|]. apply okopt_ok. vm_compute. reflexivity.
Qed.

(** ** What is not so *)
Definition rtrans (s : spQ) := got (vs_init, []) (ex_translate 30 (got [] (rrender s))).
Definition renv_of (s : spQ) : envQ := got [] (module_env ioQ po 9 ex_call (fst (rtrans s))).
Definition rcmd (s : spQ) : cmdQ := got (Sequence []) (r_command (renv_of s) (snd (rtrans s))).
Definition written_as (s : spQ) (p : list stmtQ) (st : vstate QS) (is : list (item QS)) (g : envQ) : Prop :=
  rrender s = Ok p /\ ex_translate 30 p = Ok (st, is) /\ module_env ioQ po 9 ex_call st = Ok g.
(** Z ~= 2*X + 1 is written as Z ~= 1 + 2(X), which calls a number. *)
Lemma written : forall s, isok (rrender s) = true -> isok (ex_translate 30 (got [] (rrender s))) = true -> isok (module_env ioQ po 9 ex_call (fst (rtrans s))) = true ->
  written_as s (got [] (rrender s)) (fst (rtrans s)) (snd (rtrans s)) (renv_of s).
Proof. intros s H1 H2 H3. split; [now apply got_ok|]. split; [rewrite <- surjective_pairing; now apply got_ok|now apply got_ok]. Qed.
Ltac is_written := apply written; vm_compute; reflexivity.
Theorem C40_linear_refuted : exists s p st is g, wf_spe elaw s /\ typed exnom no_env s /\ written_as s p st is g /\ r_command g is = Raise TypeError.
Proof.
  exists ux, (got [] (rrender ux)), (fst (rtrans ux)), (snd (rtrans ux)), (renv_of ux). split; [exact ux_wf|]. split; [split; [exact env_num|exact Logic.I]|]. split; [is_written|]. apply israise_ok. vm_compute. reflexivity.
Qed.
(** Z ~= 1/(X + 1) is written as Z ~= (1/1 + X), and read as X + 1: with no error the variable has other values. *)
Definition Zr : tr QS := TRecip (TPoly X [1;1]%Q).
Definition rr : spQ := RealLeaf (D:=DQ) true "X" (DFin dl) i03 false (env_of Zr).
Lemma rr_wf : wf_leaf elaw rr.
Proof.
  apply (leaf_of_wf Zr); [repeat split; exact Logic.I|exact Logic.I|reflexivity|now apply iv_wf|intros _; apply disc_i03|apply fin_dist, dl_ok|exact full_i03|].
  intros w v H. destruct v as [r|]; [|destruct H]. apply in_iv_num in H. cbn in H.
  assert (Hr : 0 <= r) by (revert H; unfold Q2R; cbn; lra).
  assert (Hz : toR (n:=QS) 1%Q + r * (toR (n:=QS) 1%Q + r * 0) <> 0) by (cbn; unfold Q2R; cbn; lra).
  assert (Ex : place "X" (env_of Zr) w (FNum r) "X" = FNum r) by reflexivity.
  assert (Ez : place "X" (env_of Zr) w (FNum r) "Z" = value_or (teval Zr (place "X" (env_of Zr) w (FNum r)))) by reflexivity.
  assert (Et : exists y, teval Zr (place "X" (env_of Zr) w (FNum r)) = Some (FNum y)).
  { revert Ex. generalize (place "X" (env_of Zr) w (FNum r)). intros a Ex. unfold Zr, X. cbn [teval]. rewrite Ex. cbn [num_op Rpoly]. unfold f_recip. destruct (Req_EM_T _ 0) as [K|K]; [contradiction|]. eexists. reflexivity. }
  split.
  - intros x t E. destruct (env_of_lookup Zr x t E) as [(-> & ->)|(-> & ->)]; [exact (eq_sym (eq_sym (f_equal Some Ex)))|]. rewrite Ez. destruct Et as (y & ->). reflexivity.
  - intros x t E. apply plain_regular. destruct (env_of_lookup Zr x t E) as [(-> & ->)|(-> & ->)]; cbn; auto.
Qed.

Definition rr_prog : list stmtQ := [SImport "from sppl.distributions import *"; SAssign [XName "X"] (XCall "randint" [] [("low", XNumQ 0); ("high", XNumQ 4)]); SAssign [XName "Z"] (XBin BAdd (XBin BDiv (XNumQ 1) (XNumQ 1)) (XName "X"))].
Definition rr_cmd : cmdQ := Sequence [samp "X" dV; Transform "Z" (TPoly X [1;1]%Q)].
Definition rr_got : spQ := RealLeaf (D:=DQ) true "X" (DFin dl) i03 false (env_of (TPoly X [1;1]%Q)).
Lemma rr_render : rrender rr = Ok rr_prog.
Proof. reflexivity. Qed.
Lemma rr_run : ProgEx.run rr_cmd None = Ok (Some rr_got).
Proof. reflexivity. Qed.
Lemma rr_command : r_command (renv_of rr) (snd (rtrans rr)) = Ok rr_cmd.
Proof. reflexivity. Qed.
Definition z3 : asg -> R := ind (fun a => a "Z" = FNum 3).
Lemma den_z3 : forall e w (g : R -> R), (forall (a : asg) r, 0 <= r -> a "X" = FNum r -> teval e a = Some (FNum (g r))) ->
  den elaw (RealLeaf (D:=DQ) true "X" (DFin dl) i03 false (env_of e)) z3 w = ind (fun r => g r = 3) 0 * (1/2) + ind (fun r => g r = 3) 2 * (1/4) + ind (fun r => g r = 3) 3 * (1/4).
Proof.
  intros e w g H. cbn [den real_law elaw dl map sumR fold_right fst snd].
  assert (K : forall r, 0 <= r -> z3 (place "X" (env_of e) w (FNum r)) = ind (fun r => g r = 3) r).
  { intros r Hr. unfold z3. apply ind_eq. set (a := upd w "X" (FNum r)). change (place "X" (env_of e) w (FNum r) "Z") with (value_or (teval e (upd a "X" (value_or (Some (a "X")))))).
    assert (E : teval e (upd a "X" (value_or (Some (a "X")))) = Some (FNum (g r))) by (apply H; auto). rewrite E. cbn [value_or]. split; [intros [= ->]; reflexivity|intros ->; reflexivity]. }
  rewrite !K by lra. unfold Q2R; cbn. lra.
Qed.
Theorem C40_reciprocal_refuted : exists s p st is g c t, wf_spe elaw s /\ typed exnom no_env s /\ written_as s p st is g /\ r_command g is = Ok c /\ ProgEx.run c None = Ok (Some t) /\
  exists f w, simple f /\ reads (vars s) f /\ den elaw t f w <> den elaw s f w.
Proof.
  exists rr, rr_prog, (fst (rtrans rr)), (snd (rtrans rr)), (renv_of rr), rr_cmd, rr_got. split; [exact rr_wf|]. split; [split; [intros z [<-|[<-|[]]]; reflexivity|exact Logic.I]|].
  split; [change rr_prog with (got [] (rrender rr)); is_written|]. split; [exact rr_command|]. split; [exact rr_run|].
  exists z3, (fun _ => FNum 0). split; [apply (simple_ind_var "Z" (fun v => v = FNum 3))|]. split.
  { intros a b H. unfold z3. apply ind_eq. rewrite (H "Z"); [tauto|]. cbn. auto. }
  unfold rr_got, rr. rewrite (den_z3 (TPoly X [1;1]%Q) _ (fun r => 1 + r)), (den_z3 Zr _ (fun r => / (1 + r))).
  - rewrite (ind_false _ _ 0), (ind_true _ _ 2), (ind_false _ _ 3), !(ind_false _ (fun r => / (1 + r) = 3)); lra.
  - intros a r Hr Ha. unfold Zr, X. cbn [teval]. rewrite Ha. cbn [num_op Rpoly]. replace (toR (n:=QS) 1%Q + r * (toR (n:=QS) 1%Q + r * 0)) with (1 + r) by (cbn; unfold Q2R; cbn; lra). unfold f_recip. destruct (Req_EM_T _ 0) as [K|K]; [lra|reflexivity].
  - intros a r Hr Ha. unfold X. cbn [teval]. rewrite Ha. cbn [num_op Rpoly]. f_equal. f_equal. cbn. unfold Q2R; cbn. lra.
Qed.
(** Atoms, which conditioning on X = x makes, cannot be written. *)
Theorem C40_atoms_refuted : exists s, wf_spe elaw s /\ typed exnom exenvof s /\ rrender s = Raise AssertionError.
Proof. exists sx. split; [exact sx_wf|]. split; [exact sx_typed|reflexivity]. Qed.
(** A condition that no value excludes is written as X < inf, where inf is not defined. *)
Definition all_r : interval QS := mkIv NInf PInf true true.
Definition rall : spQ := RealLeaf (D:=DQ) false "X" DUnif all_r true (Spe.base_env "X").
Theorem C40_infinite_refuted : exists s p st is g, wf_spe elaw s /\ typed exnom no_env s /\ written_as s p st is g /\ r_command g is = Raise KeyError.
Proof.
  exists rall, (got [] (rrender rall)), (fst (rtrans rall)), (snd (rtrans rall)), (renv_of rall). split; [|split; [split; [intros z [<-|[]]; reflexivity|exact Logic.I]|split; [is_written|apply israise_ok; vm_compute; reflexivity]]].
  assert (U : elaw DUnif (ind (in_iv all_r)) = 1) by (apply unif_supp; intros r H; apply in_iv_num; cbn; auto).
  assert (L : forall y t, Trans.lookup y (Spe.base_env (N:=QS) "X") = Some t -> y = "X" /\ t = TId "X") by (intros y t H; cbn in H; destruct (String.eqb_spec y "X") as [->|]; [injection H as <-; auto|discriminate]).
  refine (conj _ (conj _ (conj unif_dist (conj _ (conj (conj (built_base _) _) _))))).
  - split; [cbn; auto|]. split; cbn; auto.
  - discriminate.
  - rewrite U. lra.
  - intros y t H. destruct (L y t H) as (-> & ->). split; exact Logic.I.
  - intros w. cbn [den rall real_law]. replace (fun v => _) with (fun _ : fval => 0); [rewrite (law_const unif_law); unfold Rdiv; ring|]. extensionality v. rewrite (ind_false _ (fun w => ~ _)); [ring|]. intros K. apply K. split; intros y t H; destruct (L y t H) as (-> & ->); [reflexivity|exact Logic.I].
Qed.
(** A variable may have the name of a branch. *)
Definition rclash : spQ := SumSPE (S:=LQ) [(NominalLeaf "branch_var_0" [("a", 1#1)]%Q, 1#2); (NominalLeaf "branch_var_0" [("b", 1#1)]%Q, 1#2)]%Q.
Theorem C40_names_refuted : exists s p, wf_spe elaw s /\ typed rnom no_env s /\ rrender s = Ok p /\ ex_translate 30 p = Raise AssertionError.
Proof.
  exists rclash, (got [] (rrender rclash)). split; [|split; [|split; [works|apply israise_ok; vm_compute; reflexivity]]].
  - split; [cbn [All fst]; repeat split; try (repeat constructor; cbn; intuition discriminate)|]. split.
    + cbn [map sumR fold_right snd]. rewrite !lqP' by reflexivity. unfold Q2R; cbn. lra.
    + intros c d [<-|[<-|[]]] [<-|[<-|[]]] x H; exact H.
  - split; [repeat constructor; cbn [snd]; rewrite lqP' by reflexivity; unfold Q2R; cbn; lra|repeat split; reflexivity].
Qed.
Definition all_render_properties := (@C40_roundtrip_partial, @C40_runs_partial, C40_runs_case, @C40_printable_shows, C40_roundtrip_case, C40_linear_refuted, C40_reciprocal_refuted, C40_atoms_refuted, C40_infinite_refuted, C40_names_refuted).
Print Assumptions all_render_properties.
