(** Inverting a chain of one-to-one functions at an interval or at numbers gives an interval or
    numbers again. *)
From Coq Require Import List Bool String Reals Lra Lia ZArith Permutation.
From Verif Require Import Base Num Sets SetSpec SetIv SetProofs SetOr SetOps SetAlg SetBuilt
  Poly Trans TransSpec TransFacts PolyProofs InvProofs InvMain ArithProofs SolveSpec InvTotal AskSpec.
Import ListNotations.
Local Open Scope R_scope.

Section Narrow.
  Context {N : numsys} (io : iterorder N) (po : polyoracle N) (fuel : nat).
  Notation pset := (pset N).
  Notation enum := (ext (num N)).
  Notation tr := (tr N).

  Lemma basic_of : forall k (s : pset), k <> Many -> fit k s -> basic s.
  Proof.
    intros k s Nk [->|[(i & -> & _)|K]]; [now left|right; eauto|]. destruct k; [destruct K as (a & ->)|destruct K as (a & ->)|destruct K as ((vs & ->) & _)|tauto]; right; eauto.
  Qed.
  Definition falls (k : kind) (rg s : pset) : Prop := exists inter, pand io rg s = Ok inter /\ basic inter /\ fit k inter.
  Lemma cap_falls : forall k infs o s, k <> Many -> wf (PUnion [BReal infs; BInt o]) -> Forall (fun x => is_inf x = true) infs -> fit k s -> falls k (PUnion [BReal infs; BInt o]) s.
  Proof.
    intros k infs o s Nk W F Fs. destruct (basic_of k s Nk Fs) as [->|(b & ->)]; [exists PEmpty; split; [reflexivity|split; now left]|]. destruct (cap_basic io k infs o b W F Fs) as (r & E & B & Fr). exists r. auto.
  Qed.
  Lemma line_falls : forall k s, k <> Many -> fit k s -> falls k (PB (BInt line)) s.
  Proof.
    intros k s Nk Fs. destruct (basic_of k s Nk Fs) as [->|(b & ->)]; [exists PEmpty; split; [reflexivity|split; now left]|]. destruct (meet_fit k b line line_wf Fs) as (r & E & B & Fr). exists r. split; [exact E|]. auto.
  Qed.
  Lemma step_basic : forall k k' rg (u : pset -> res pset) finv int n s r, wf rg -> k <> Many -> fit k s -> falls k rg s ->
    (forall y, mem (RNum (eR y)) rg -> (k <> Ext -> exists a, y = Fin a) -> exists z, finv y = Ok z /\ fit k' z /\ (k' = Few -> exists e, z = PB (BReal [e]))) ->
    (forall i, wf_iv i -> (forall v, bmem v (BInt i) -> mem v rg) -> exists z, int i = Ok z /\ fit k' z) ->
    (k = Few \/ k = Many -> k' = Few \/ k' = Many) ->
    (forall zs r, fit k' zs -> u zs = Ok r -> basic r) ->
    dispatch io n (Ok rg) (fun vs => do zs <- finv_all io finv vs; u zs) (fun i => do zs <- int i; u zs) s = Ok r -> basic r.
  Proof.
    intros k k' rg u finv int [|n] s r Wr Nk Fs (inter & E & B & Fi) Hf Hi Hk Hu H; [discriminate|]. cbn [dispatch bind] in H. rewrite E in H. cbn [bind] in H.
    destruct (fit_wf _ _ Fs) as (Ws & Rs). apply pand_f in E; auto. destruct E as (_ & _ & R & M). specialize (R (or_intror Rs)).
    destruct B as [->|(c & ->)]; [injection H as <-; now left|]. destruct c as [vs f|vs|i]; [destruct R| |].
    - destruct (fit_vs k vs Fi) as (Ne & Sh & Fin). destruct (finv_all_total io finv k' vs Ne) as (zs & Ez & Fz).
      + destruct Sh as [Sh|Sh]; auto.
      + intros y Hy. apply Hf; [apply M; cbn; eauto|]. intros K. now apply Fin.
      + rewrite Ez in H. cbn [bind] in H. now apply (Hu zs).
    - destruct (Hi i) as (zs & Ez & Fz); [now apply (fit_iv k)|intros v Hv; now apply M|]. rewrite Ez in H. cbn [bind] in H. now apply (Hu zs).
  Qed.
  Theorem narrow_basic : forall (t : tr) k s r, narrow t -> chain po k t -> k <> Many -> fit k s -> invert io po fuel t s = Ok r -> basic r.
  Proof.
    destruct (ExtRealsPos_f (N:=N)) as (Wp & _). destruct (ExtReals_f (N:=N)) as (We & _).
    induction t; intros q s r Nt C Nk F H; try (destruct C; fail); try (destruct Nt; fail); cbn [invert chain narrow range] in *.
    - destruct fuel as [|n]; [discriminate|]. cbn [dispatch bind] in H. destruct (cap_falls q [NInf; PInf] line s Nk We (infs1 (N:=N)) F) as (inter & E & B & Fi). change (pand io ExtReals s = Ok inter) in E. rewrite E in H. cbn [bind] in H.
      destruct B as [->|(c & ->)]; [injection H as <-; now left|]. destruct c; try discriminate; injection H as <-; right; eauto.
    - refine (step_basic q q _ (invert io po fuel t) _ _ _ s r Wp Nk F (cap_falls q _ _ s Nk Wp (infs2 (N:=N)) F) _ _ (fun K => K) (fun zs x Fz => IHt q zs x Nt C Nk Fz) H).
      + intros y M Y. apply one_out. now apply radical_finv.
      + intros i Wi Di. apply iv_out. now apply radical_interval.
    - destruct C as (Hb & Lg & Ke & C). refine (step_basic q Ext _ (invert io po fuel t) _ _ _ s r Wp Nk F (cap_falls q _ _ s Nk Wp (infs2 (N:=N)) F) _ _ _ (fun zs x Fz => IHt Ext zs x Nt C ltac:(discriminate) Fz) H).
      + intros y M _. destruct (exp_finv io base y Hb Lg M) as (z & E & F'). exists z. split; [exact E|split; [exact F'|discriminate]].
      + intros i Wi Di. apply iv_out. now apply exp_interval.
      + destruct Ke as [->| ->]; intros [K|K]; discriminate.
    - destruct C as (Hb & Pw & C). refine (step_basic q q _ (invert io po fuel t) _ _ _ s r We Nk F (cap_falls q _ _ s Nk We (infs1 (N:=N)) F) _ _ (fun K => K) (fun zs x Fz => IHt q zs x Nt C Nk Fz) H).
      + intros y _ Y. apply one_out. now apply log_finv.
      + intros i Wi _. apply iv_out. now apply log_interval.
    - destruct coeffs as [|c0 [|c1 [|]]]; try contradiction. destruct C as (Ln & C). rewrite (linear_range io po _ _ Ln) in H.
      assert (Nl : lower q <> Many) by (destruct q; [discriminate|discriminate|discriminate|tauto]).
      refine (step_basic q (lower q) (PB (BInt line)) (invert io po fuel t) _ _ _ s r line_wf Nk F (line_falls q s Nk F) _ _ _ (fun zs x Fz => IHt (lower q) zs x Nt C Nl Fz) H).
      + intros y M _. apply one_out. destruct (linear_finv io po c0 c1 y Ln M) as (a & E). exists (Fin a). eauto.
      + intros i Wi _. now apply linear_interval.
      + destruct q; cbn; intros [K|K]; try discriminate; auto.
  Qed.
End Narrow.
