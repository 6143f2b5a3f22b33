(** Inversion of chains of functions, and solving comparisons of them, succeeds. *)
From Coq Require Import List Bool String Reals Lra Lia ZArith Permutation.
From Verif Require Import Base Num Sets SetSpec SetIv SetProofs SetOr SetOps SetAlg SetBuilt
  Poly Trans TransSpec TransFacts PolyProofs InvProofs InvMain SolveSpec.
Import ListNotations.
Local Open Scope R_scope.

Section Total.
  Context {N : numsys} (io : iterorder N) (po : polyoracle N) (fuel : nat).
  Notation pset := (pset N).
  Notation bset := (bset N).
  Notation tr := (tr N).
  Notation enum := (ext (num N)).

  Definition fit (k : kind) (s : pset) : Prop :=
    s = PEmpty \/ (exists i, s = PB (BInt i) /\ wf_iv i) \/
    match k with
    | One => exists a, s = PB (BReal [Fin a])
    | Ext => exists x, s = PB (BReal [x])
    | Few => (exists vs, s = PB (BReal vs)) /\ wf s /\ inffree s
    | Many => wf s /\ real_set s /\ inffree s
    end.
  Lemma fit_wf : forall k s, fit k s -> wf s /\ real_set s.
  Proof.
    intros k s [->|[(i & -> & W)|H]]; [split; exact I|split; [exact W|exact I]|]. destruct k.
    - destruct H as (a & ->). destruct (BReal1 (N:=N) (Fin a)) as (A & B & _). auto.
    - destruct H as (a & ->). destruct (BReal1 (N:=N) a) as (A & B & _). auto.
    - destruct H as ((vs & ->) & W & _). split; [exact W|exact I].
    - tauto.
  Qed.
  Lemma fit_inffree : forall k s, fit k s -> k <> Ext -> inffree s.
  Proof.
    intros k s [->|[(i & -> & W)|H]] Nk; [intros x []|now apply iv_inffree|]. destruct k; [| tauto |tauto|tauto].
    destruct H as (a & ->). destruct (BReal1 (N:=N) (Fin a)) as (_ & _ & _ & D). apply D. eauto.
  Qed.

  Lemma iv_and_shape : forall i j r, iv_and (N:=N) i j = Ok r -> r = PEmpty \/ (exists k, r = PB (BInt k)) \/ exists x, r = PB (BReal [x]).
  Proof.
    intros i j r H. unfold iv_and in H.
    repeat match type of H with
      | (if ?c then _ else _) = _ => destruct c
      | Ok (if ?c then _ else _) = _ => destruct c
      | bind _ _ = _ => inv_bind H
      | Ok _ = Ok _ => injection H as <-
      end; eauto.
  Qed.

  (** a basic set met with an interval *)
  Lemma meet_fit : forall k b (o : interval N), wf_iv o -> fit k (PB b) ->
    exists r, and_bb (BInt o) b = Ok r /\ (r = PEmpty \/ exists c, r = PB c) /\ fit k r.
  Proof.
    intros k b o Wo F. destruct (fit_wf _ _ F) as (W & R). destruct (and_bb_ok (BInt o) b Wo W) as (r & E & (A & B & C) & Nu).
    exists r. split; auto. assert (Sh : r = PEmpty \/ exists c, r = PB c) by (destruct r as [|c|]; [now left|eauto|destruct Nu]). split; auto.
    assert (If : k <> Ext -> inffree r). { intros Nk x Hx. apply B in Hx. apply (fit_inffree _ _ F Nk). apply Hx. }
    destruct k; try (right; right; split; [exact A|split; [apply C; left; exact I|apply If; discriminate]]).
    3: { destruct Sh as [->|(c & ->)]; [now left|]. destruct c as [vs f|vs|i]; [destruct (C (or_introl I))| |right; left; eauto]. right. right. split; [eauto|]. split; [exact A|apply If; discriminate]. }
    all: destruct F as [F|[(i & [= ->] & Wi)|(a & [= ->])]]; [discriminate| |].
    1,3: destruct (iv_and_shape o i r E) as [->|[(j & ->)|(x & ->)]]; [now left|right; left; exists j; split; auto|].
    - right. right. destruct (If ltac:(discriminate) (eR x)) as (c & Ex); [exists x; split; [now left|reflexivity]|]. destruct x as [|x|]; try discriminate. eauto.
    - right. right. eauto.
    - cbn [and_bb] in E. injection E as <-. unfold and_real_iv. cbn [filter]. destruct (iv_contains _ o); cbn; [right; right; eauto|now left].
    - cbn [and_bb] in E. injection E as <-. unfold and_real_iv. cbn [filter]. destruct (iv_contains _ o); cbn; [right; right; eauto|now left].
  Qed.

  (** ** The intersection with the range *)
  Definition parts (v : pset) : list bset := match v with PEmpty => [] | PB b => [b] | PUnion u => u end.
  Definition basic (v : pset) : Prop := v = PEmpty \/ exists c, v = PB c.
  Definition meets (k : kind) (rg s : pset) : Prop :=
    exists inter, pand io rg s = Ok inter /\ Forall (fun b => fit k (PB b)) (parts inter) /\
      (basic inter \/ Forall (fun b => exists r, pand io rg (PB b) = Ok r /\ basic r /\ fit k r) (parts inter)).

  Lemma parts_many : forall s, wf s -> real_set s -> inffree s -> Forall (fun b => fit Many (PB b)) (parts s).
  Proof.
    intros [|b|u] W R I; cbn [parts]; [constructor|constructor; [right; right; auto|constructor]|].
    apply Forall_forall. intros b Hb. right. right. apply wf_union_iff in W. destruct W as ((W & _) & _). rewrite Forall_forall in W. cbn in R. rewrite Forall_forall in R.
    split; [now apply W|split; [now apply R|]]. intros x Hx. apply I. cbn. eauto.
  Qed.
  Lemma infs_iv : forall (infs : list enum) i, Forall (fun x => is_inf x = true) infs -> wf_iv i -> and_real_iv infs i = PEmpty.
  Proof.
    intros infs i F W. unfold and_real_iv. assert (E : filter (fun v => iv_contains v i) infs = []); [|now rewrite E].
    induction F as [|x l Hx F IH]; auto. cbn [filter]. destruct (iv_contains x i) eqn:E; auto. exfalso.
    apply iv_contains_R in E. destruct (iv_inffree i W (eR x)) as (r & Er); [now apply iv_mem_pm|]. destruct x; discriminate.
  Qed.
  Lemma inf_iv : forall (x : enum) i, is_inf x = true -> wf_iv i -> and_real_iv [x] i = PEmpty.
  Proof. intros x i Hx W. apply infs_iv; auto. Qed.

  (** the infinite points and one interval *)
  Lemma cap_basic : forall k infs o b, wf (PUnion [BReal infs; BInt o]) -> Forall (fun x => is_inf x = true) infs -> fit k (PB b) ->
    exists r, and_ub io [BReal infs; BInt o] b = Ok r /\ basic r /\ fit k r.
  Proof.
    intros k infs o b W F Fb. destruct (fit_wf _ _ Fb) as (Wb & Rb). assert (Wo : wf_iv o) by (apply wf_union_iff in W; destruct W as ((W & _) & _); rewrite Forall_forall in W; apply (W (BInt o)); simpl; auto).
    rewrite and_ub_real by exact Rb. unfold and_ub_body. cbn [u_atoms]. 
    destruct (meet_fit k b o Wo Fb) as (r & Er & Sh & Fr).
    assert (Eu : u_intervals io [BReal infs; BInt o] = [o]).
    { apply wf_union_iff in W. destruct W as (P & _). pose proof (u_intervals_perm io _ P) as Q. cbn in Q. now apply Permutation_length_1_inv in Q. }
    rewrite Eu. cbn [mapM]. rewrite Er. cbn [bind filter].
    assert (Ua : u_atoms [BReal infs; BInt o] = PB (BReal infs)) by reflexivity. rewrite Ua. cbn [and_pb].
    assert (At : (exists x, b = BReal [x] /\ is_inf x = true) \/ and_bb (BReal infs) b = Ok PEmpty).
    { destruct b as [vs f|vs|i]; [destruct Rb| |right; cbn [and_bb]; now rewrite infs_iv].
      destruct (existsb is_inf vs) eqn:Ev.
      - destruct Fb as [Fb|[(i & Fb & _)|Fb]]; try discriminate. left. destruct k.
        + destruct Fb as (a & [= ->]). cbn in Ev. discriminate.
        + destruct Fb as (x & [= ->]). exists x. split; auto. cbn in Ev. now rewrite orb_false_r in Ev.
        + exfalso. apply existsb_exists in Ev. destruct Ev as (x & Hx & Ex). destruct (proj2 (proj2 Fb) (eR x)) as (c & Ec); [cbn; eauto|]. destruct x; discriminate.
        + exfalso. apply existsb_exists in Ev. destruct Ev as (x & Hx & Ex). destruct (proj2 (proj2 Fb) (eR x)) as (c & Ec); [cbn; eauto|]. destruct x; discriminate.
      - right. cbn [and_bb]. unfold and_real_real. assert (E0 : filter (fun v => inb eeqb v vs) infs = []); [|now rewrite E0].
        clear -F Ev. induction F as [|x l Hx F IH]; auto. cbn [filter]. destruct (inb eeqb x vs) eqn:E; auto. exfalso. unfold inb in E. apply existsb_exists in E. destruct E as (y & Hy & Ey).
        assert (is_inf y = true). { apply eeqb_eR in Ey. destruct x, y; try discriminate; reflexivity. }
        assert (existsb is_inf vs = true) by (apply existsb_exists; eauto). congruence. }
    destruct At as [(x & -> & Hx)| ->].
    - cbn [and_bb] in Er. rewrite inf_iv in Er by auto. injection Er as <-. cbn [is_empty negb and_bb bind]. unfold and_real_real.
      assert (Fk : k = Ext). { destruct k; auto; exfalso; destruct (fit_inffree _ _ Fb ltac:(discriminate) (eR x)) as (c & Ec); try (exists x; split; [now left|reflexivity]); destruct x; discriminate. }
      subst k. set (r := freal_or_empty _). assert (Hr : r = PEmpty \/ exists y, r = PB (BReal [y])).
      { unfold r. clear -Hx F W. assert (Nd : NoDup (map eR infs)) by (apply wf_union_iff in W; destruct W as ((W & _) & _); rewrite Forall_forall in W; exact (proj1 (W (BReal infs) (or_introl eq_refl)))).
        assert (K : filter (fun v => inb eeqb v [x]) infs = [] \/ exists y, filter (fun v => inb eeqb v [x]) infs = [y]).
        { clear -Nd. induction infs as [|y l IH]; [now left|]. inversion Nd as [|? ? Ny Nl]; subst. cbn [filter]. destruct (inb eeqb y [x]) eqn:E; [|auto]. right. exists y. f_equal.
          assert (E' : filter (fun v => inb eeqb v [x]) l = []); [|exact E']. cbn in E. rewrite orb_false_r in E. apply eeqb_eR in E. clear -Ny E. induction l as [|z l IH]; auto. cbn [filter]. destruct (inb eeqb z [x]) eqn:Ez.
          - exfalso. apply Ny. left. cbn in Ez. rewrite orb_false_r in Ez. apply eeqb_eR in Ez. congruence.
          - apply IH. intros K. apply Ny. now right. }
        destruct K as [->|(y & ->)]; [now left|right; exists y; reflexivity]. }
      destruct Hr as [->|(y & ->)]; cbn; [exists PEmpty; split; [reflexivity|split; [now left|now left]]|].
      eexists. split; [reflexivity|]. split; [right; eauto|]. right. right. eauto.
    - cbn [bind is_empty]. destruct (is_empty r) eqn:E; cbn [negb]; [exists PEmpty; split; [reflexivity|split; [now left|now left]]|]. exists r. split; [reflexivity|auto].
  Qed.
  Lemma cap_meets : forall k infs o s, wf (PUnion [BReal infs; BInt o]) -> Forall (fun x => is_inf x = true) infs -> fit k s -> meets k (PUnion [BReal infs; BInt o]) s.
  Proof.
    intros k infs o s W F Fs. unfold meets. destruct s as [|b|u].
    - exists PEmpty. split; [reflexivity|]. split; [constructor|left; now left].
    - destruct (cap_basic k infs o b W F Fs) as (r & E & Br & Fr). exists r. split; [exact E|]. split; [|left; exact Br].
      destruct Br as [->|(c & ->)]; cbn; [constructor|constructor; auto].
    - assert (Fm : wf (PUnion u) /\ real_set (PUnion u) /\ inffree (PUnion u)). { destruct Fs as [K|[(i & K & _)|K]]; try discriminate. destruct k; [destruct K as (? & K); discriminate|destruct K as (? & K); discriminate|destruct K as ((? & K) & _); discriminate|exact K]. }
      assert (Ek : k = Many). { destruct Fs as [K|[(i & K & _)|K]]; try discriminate. destruct k; auto; [destruct K as (? & K)|destruct K as (? & K)|destruct K as ((? & K) & _)]; discriminate. } subst k. destruct Fm as (Wu & Ru & Iu).
      pose proof (parts_many _ Wu Ru Iu) as Pm. cbn [parts] in Pm. pose proof (proj1 (wf_union_iff u) Wu) as (Pu & _).
      assert (M : exists terms, mapM (and_ub io [BReal infs; BInt o]) (u_values io u) = Ok terms /\ Forall (fun r => fit Many r) terms).
      { assert (Fv : Forall (fun b => fit Many (PB b)) (u_values io u)) by (eapply Permutation_Forall; [exact (u_values_perm io u Pu)|exact Pm]).
        clear -Fv W F. induction Fv as [|b l Hb Fv IH]; [exists []; split; [reflexivity|constructor]|]. destruct (cap_basic Many infs o b W F Hb) as (r & E & _ & Fr). destruct IH as (rs & E' & Frs).
        exists (r :: rs). cbn [mapM]. rewrite E. cbn [bind]. rewrite E'. split; [reflexivity|now constructor]. }
      destruct M as (terms & Em & Ft). cbn [pand]. rewrite Em. cbn [bind].
      assert (Ne : terms <> []). { intros ->. apply mapM_Forall2 in Em. inversion Em as [E|]. destruct (u_values_facts io u Wu) as (_ & _ & _ & K). congruence. }
      destruct (reduce_por_total io terms Ne) as (inter & Ei).
      { eapply Forall_impl; [|exact Ft]. intros r Hr. now apply (fit_wf Many). }
      { eapply Forall_impl; [|exact Ft]. intros r Hr. now apply (fit_wf Many). }
      rewrite Ei. exists inter. split; [reflexivity|].
      assert (Hi : pand io (PUnion [BReal infs; BInt o]) (PUnion u) = Ok inter) by (cbn [pand]; rewrite Em; exact Ei). apply pand_f in Hi; auto. destruct Hi as (Wi & _ & Ri & Mi).
      assert (Pi : Forall (fun b => fit Many (PB b)) (parts inter)). { apply parts_many; auto. intros x Hx. apply Iu. now apply Mi. }
      split; [exact Pi|]. right. eapply Forall_impl; [|exact Pi]. intros b Hb. cbn [pand]. now apply cap_basic.
  Qed.

  (** a union met with an interval, when no two pieces touch in a point only *)
  Lemma and_ub_ivs_total : forall u (o : interval N), wf (PUnion u) -> Forall real_b u -> wf_iv o ->
    (forall i s, In i (u_intervals io u) -> and_bb (BInt i) (BInt o) = Ok s -> s = PEmpty \/ exists j, s = PB (BInt j)) ->
    exists r, and_ub io u (BInt o) = Ok r.
  Proof.
    intros u o W R Wo Hiv. apply wf_union_iff in W. destruct W as (P & L). rewrite and_ub_real by exact I. unfold and_ub_body.
    destruct (u_atoms_wf u P) as (Wa & Na). destruct (u_intervals_wf io u P) as (Wi & Di).
    destruct (and_pb_ok (u_atoms u) (BInt o) Wa Na Wo) as (ra & Ea & (A & B & C) & Nra).
    destruct (map_and_iv (BInt o) (u_intervals io u) Wo Wi Di) as (ivs & Ei & Nu & Wv & Lv & Dv & Rv & Mv).
    rewrite Ea. cbn [bind]. rewrite Ei. cbn [bind].
    assert (Iv : forall s, In s (filter (fun s => negb (is_empty s)) ivs) -> exists j, s = PB (BInt j)).
    { intros s Hs. apply filter_In in Hs. destruct Hs as (Hs & Es). apply mapM_Forall2 in Ei.
      assert (exists i, In i (u_intervals io u) /\ and_bb (BInt i) (BInt o) = Ok s) as (i & Hei & Hi').
      { clear -Ei Hs. induction Ei; [destruct Hs|]. destruct Hs as [<-|Hs]; [exists x; split; auto; now left|]. destruct (IHEi Hs) as (i & Hi & E). exists i. split; auto. now right. }
      destruct (Hiv i s Hei Hi') as [->|K]; [discriminate|exact K]. }
    set (ne := filter (fun s => negb (is_empty s)) ivs) in *.
    assert (Rra : real_set ra) by (apply C; right; exact I).
    assert (Nn : filter is_nom (flat_map opt_list ne) = []) by (clear -Rv; induction Rv as [|b l Hb _ IH]; auto; simpl; destruct b; simpl in *; tauto).
    assert (Nr : filter is_real (flat_map opt_list ne) = []) by (clear -Iv; induction ne as [|s l IH]; auto; destruct (Iv s) as (j & ->); [now left|]; simpl; apply IH; intros; apply Iv; now right).
    destruct ra as [|b|]; [| |contradiction].
    - cbn [is_empty]. destruct ne as [|x [|y ne']] eqn:En; eauto. rewrite <- En in *. eexists. apply Union_ok; [cbn [flat_map opt_list app]; reflexivity|constructor; [exact I|exact Nu]| |rewrite Lv, En; simpl; lia].
      unfold pieces_ok. split; [exact Wv|]. split; [rewrite Nn; simpl; lia|]. split; [rewrite Nr; simpl; lia|exact Dv].
    - cbn [is_empty]. destruct ne as [|x ne'] eqn:En; eauto. rewrite <- En in *. eexists. apply Union_ok; [reflexivity|constructor; [exact I|exact Nu]| |].
      + cbn [flat_map opt_list app]. assert (Ib : is_real b = true).
        { destruct (u_atoms_cases u P) as [E|(vs & E & _)]; rewrite E in Ea; cbn [and_pb] in Ea; [discriminate|]. cbn [and_bb] in Ea. injection Ea as Ea. unfold and_real_iv, freal_or_empty in Ea.
          destruct (dedup eeqb _); [discriminate|]. injection Ea as <-. reflexivity. }
        assert (Ib' : is_nom b = false) by (destruct b; auto; discriminate).
        unfold pieces_ok. split; [constructor; auto|]. split; [cbn [filter]; rewrite Ib', Nn; simpl; lia|]. split; [cbn [filter]; rewrite Ib, Nr; simpl; lia|].
        constructor; auto. apply Forall_forall. intros c Hc v Hv Hv'. apply B in Hv. destruct Hv as (Hv & _).
        assert (ML : mem_list v (flat_map opt_list ne)) by (exists c; auto). apply Mv in ML. destruct ML as ((k & Hk & Hkv) & _).
        destruct (u_atoms u) as [|a|] eqn:Eu; [destruct Hv| |destruct (u_atoms_cases u P) as [K|(vs & K & _)]; congruence].
        exact (u_atoms_disjoint io u a k P Eu Hk v Hv Hkv).
      + cbn [flat_map opt_list app List.length]. rewrite Lv, En. simpl. lia.
  Qed.
  (** an interval that is open at both ends meets no other in a single point *)
  Lemma iv_meet_open : forall (i o : interval N) s, iv_lo i && iv_ro i || iv_lo o && iv_ro o = true -> iv_and i o = Ok s -> s = PEmpty \/ exists j, s = PB (BInt j).
  Proof.
    intros i o s Op H. unfold iv_and in H.
    assert (A : eeqb (iv_b i) (iv_a o) = true -> iv_contains (iv_a o) i = true -> iv_contains (iv_a o) o = true -> False).
    { intros E K L. apply eeqb_eR in E. apply iv_contains_R in K, L. unfold pos, pm in *. rewrite E in K. destruct (iv_ro i); [lra|]. destruct (iv_lo o); [lra|]. rewrite andb_false_r in Op. discriminate. }
    assert (B : eeqb (iv_a i) (iv_b o) = true -> iv_contains (iv_b o) i = true -> iv_contains (iv_b o) o = true -> False).
    { intros E K L. apply eeqb_eR in E. apply iv_contains_R in K, L. unfold pos, pm in *. rewrite E in K. destruct (iv_lo i); [lra|]. destruct (iv_ro o); [lra|]. rewrite andb_false_r in Op. discriminate. }
    repeat match type of H with
    | (if ?b then _ else _) = _ => let E := fresh "E" in destruct b eqn:E
    | (do i <- ?m; _) = _ => destruct m; [cbn [bind] in H|discriminate]
    end; injection H as <-; eauto.
    - destruct (iv_contains (iv_a o) o) eqn:K; auto. destruct A; auto.
    - destruct (iv_contains (iv_b o) o) eqn:K; auto. destruct B; auto.
  Qed.

  (** the whole line *)
  Definition line : interval N := mkIv NInf PInf true true.
  Lemma line_wf : wf_iv line. Proof. repeat split; simpl; auto. Qed.
  Lemma line_meets : forall k s, fit k s -> meets k (PB (BInt line)) s.
  Proof.
    intros k s F. unfold meets. destruct s as [|b|u].
    - exists PEmpty. split; [reflexivity|]. split; [constructor|left; now left].
    - destruct (meet_fit k b line line_wf F) as (r & E & Sh & Fr). exists r. split; [exact E|]. split; [|left; exact Sh].
      destruct Sh as [->|(c & ->)]; cbn; auto.
    - assert (Ek : k = Many). { destruct F as [K|[(i & K & _)|K]]; try discriminate. destruct k; auto; [destruct K as (? & K)|destruct K as (? & K)|destruct K as ((? & K) & _)]; discriminate. } subst k.
      assert (Fm : wf (PUnion u) /\ real_set (PUnion u) /\ inffree (PUnion u)) by (destruct F as [K|[(i & K & _)|K]]; [discriminate|discriminate|exact K]). destruct Fm as (Wu & Ru & Iu).
      destruct (and_ub_ivs_total u line Wu Ru line_wf) as (inter & E).
      { intros i s _ H. apply (iv_meet_open i line s); auto. now rewrite orb_true_r. }
      assert (Hi : pand io (PB (BInt line)) (PUnion u) = Ok inter) by exact E.
      exists inter. split; [exact E|]. apply pand_f in Hi; auto; [|exact line_wf]. destruct Hi as (Wi & _ & Ri & Mi).
      assert (Pi : Forall (fun b => fit Many (PB b)) (parts inter)). { apply parts_many; auto. intros x Hx. apply Iu. now apply Mi. }
      split; [exact Pi|]. right. eapply Forall_impl; [|exact Pi]. intros b Hb. destruct (meet_fit Many b line line_wf Hb) as (r & E' & Sh & Fr). eauto.
  Qed.

  (** everything but zero *)
  Definition neg : interval N := mkIv NInf (Fin (nint 0)) true true.
  Definition pos_ : interval N := mkIv (Fin (nint 0)) PInf true true.
  Lemma neg_wf : wf_iv neg. Proof. repeat split; simpl; auto; discriminate. Qed.
  Lemma pos_wf : wf_iv pos_. Proof. repeat split; simpl; auto; discriminate. Qed.
  Lemma range_recip_eq : range_recip io = Ok (PUnion [BInt neg; BInt pos_]).
  Proof.
    assert (Z : eltb (N:=N) (Fin (nint 0)) (Fin (nint 0)) = false). { destruct (eltb (Fin (nint 0)) (Fin (nint 0))) eqn:E; auto. apply eltb_fin in E. lra. }
    unfold range_recip, Ropen, Lopen, Interval_. cbn [eltb passert bind is_ninf is_pinf orb por].
    change (iv_or io neg pos_ = Ok (PUnion [BInt neg; BInt pos_])). unfold iv_or.
    assert (Cn : iv_contains (Fin (nint 0)) neg = false) by (unfold iv_contains, neg; cbn [iv_a iv_b iv_lo iv_ro]; rewrite Z; now rewrite andb_false_r).
    assert (Cp : iv_contains (Fin (nint 0)) pos_ = false) by (unfold iv_contains, pos_; cbn [iv_a iv_b iv_lo iv_ro]; now rewrite Z).
    change (iv_eqb neg pos_) with false. cbv iota. unfold iv_and. change (iv_eqb neg pos_) with false. cbv iota.
    cbn [iv_a iv_b neg pos_] in *. change (iv_contains NInf pos_) with false. fold neg pos_. 
    change (iv_contains PInf neg) with false.  rewrite Cn, Cp. cbn [andb negb is_empty bind]. cbv iota.
    cbn [eeqb bind is_empty andb negb].
    apply Union_ok; [reflexivity|repeat constructor| |cbn; lia].
    unfold pieces_ok. cbn. split; [repeat constructor; auto using neg_wf, pos_wf|]. split; [lia|split; [lia|]].
    constructor; [|repeat constructor]. constructor; [|constructor]. intros [[|x|]|q] H1 H2; cbn in *; try tauto; unfold iv_mem in *; cbn in *; lra.
  Qed.
  Lemma recip_wf : wf (PUnion [BInt neg; BInt pos_]).
  Proof. pose proof (range_recip_f io _ range_recip_eq). tauto. Qed.
  Lemma sides_disjoint : forall v, bmem v (BInt neg) -> bmem v (BInt pos_) -> False.
  Proof. intros [[|x|]|q] H1 H2; cbn in *; try tauto; unfold iv_mem in *; cbn in *; lra. Qed.
  Lemma recip_basic : forall k b, (k = One \/ k = Ext) -> fit k (PB b) ->
    exists r, and_ub io [BInt neg; BInt pos_] b = Ok r /\
      ((basic r /\ fit k r) \/
       exists j1 j2 o1 o2, r = PUnion [BInt j1; BInt j2] /\ wf_iv j1 /\ wf_iv j2 /\ (o1 = neg /\ o2 = pos_ \/ o1 = pos_ /\ o2 = neg) /\
         (forall v, bmem v (BInt j1) -> bmem v (BInt o1) /\ bmem v b) /\ (forall v, bmem v (BInt j2) -> bmem v (BInt o2) /\ bmem v b)).
  Proof.
    intros k b Nk F. destruct (fit_wf _ _ F) as (Wb & Rb). rewrite and_ub_real by exact Rb. unfold and_ub_body.
    change (u_atoms [BInt neg; BInt pos_]) with (PEmpty (N:=N)). cbn [and_pb bind is_empty].
    assert (Eu : exists o1 o2, u_intervals io [BInt neg; BInt pos_] = [o1; o2] /\ (o1 = neg /\ o2 = pos_ \/ o1 = pos_ /\ o2 = neg)).
    { pose proof recip_wf as W. apply wf_union_iff in W. destruct W as (P & _). pose proof (u_intervals_perm io _ P) as Q. cbn in Q. apply Permutation_length_2_inv in Q. destruct Q as [->| ->]; eauto 6. }
    destruct Eu as (o1 & o2 & -> & Ho). assert (W12 : wf_iv o1 /\ wf_iv o2) by (destruct Ho as [(-> & ->)|(-> & ->)]; auto using neg_wf, pos_wf). destruct W12 as (W1 & W2).
    destruct (meet_fit k b o1 W1 F) as (r1 & E1 & B1 & F1). destruct (meet_fit k b o2 W2 F) as (r2 & E2 & B2 & F2).
    cbn [mapM]. rewrite E1, E2. cbn [bind filter].
    assert (M1 : forall v, mem v r1 -> bmem v (BInt o1) /\ bmem v b) by (destruct (and_bb_ok (BInt o1) b W1 Wb) as (r & E & (_ & A & _) & _); rewrite E1 in E; injection E as <-; intros v; apply A).
    assert (M2 : forall v, mem v r2 -> bmem v (BInt o2) /\ bmem v b) by (destruct (and_bb_ok (BInt o2) b W2 Wb) as (r & E & (_ & A & _) & _); rewrite E2 in E; injection E as <-; intros v; apply A).
    destruct (is_empty r1) eqn:Z1; cbn [negb].
    { destruct (is_empty r2) eqn:Z2; cbn [negb]; eexists; split; try reflexivity; left; split; auto; now left. }
    destruct (is_empty r2) eqn:Z2; cbn [negb]; [eexists; split; [reflexivity|]; left; split; auto|].
    assert (Dj : forall v, bmem v (BInt o1) -> bmem v (BInt o2) -> False) by (intros v; destruct Ho as [(-> & ->)|(-> & ->)]; intros; eapply sides_disjoint; eauto).
    destruct B1 as [->|(c1 & ->)]; [discriminate|]. destruct B2 as [->|(c2 & ->)]; [discriminate|].
    assert (Iv : exists j1 j2, c1 = BInt j1 /\ c2 = BInt j2).
    { destruct b as [vs f|vs|i]; [destruct Rb| |].
      - exfalso. assert (exists x, vs = [x]) as (x & ->). { destruct F as [F|[(i & F & _)|F]]; try discriminate. destruct Nk as [->| ->]; destruct F as (a & [= ->]); eauto. }
        destruct (fit_wf _ _ F1) as (Wc1 & _). destruct (fit_wf _ _ F2) as (Wc2 & _). destruct (b_inhabited c1 Wc1) as (v1 & H1). destruct (b_inhabited c2 Wc2) as (v2 & H2).
        apply M1 in H1. apply M2 in H2. destruct H1 as (H1 & K1), H2 as (H2 & K2). destruct v1 as [v1|]; [|destruct K1]. destruct v2 as [v2|]; [|destruct K2].
        cbn in K1, K2. destruct K1 as (? & [<-|[]] & <-). destruct K2 as (? & [<-|[]] & <-). eauto.
      - cbn [and_bb] in E1, E2. assert (P1 : iv_lo o1 && iv_ro o1 = true /\ iv_lo o2 && iv_ro o2 = true) by (destruct Ho as [(-> & ->)|(-> & ->)]; auto). destruct P1 as (P1 & P2).
        apply iv_meet_open in E1; [|now rewrite P1]. apply iv_meet_open in E2; [|now rewrite P2].
        destruct E1 as [?|(j1 & [= ->])]; [discriminate|]. destruct E2 as [?|(j2 & [= ->])]; [discriminate|]. eauto. }
    destruct Iv as (j1 & j2 & -> & ->). destruct (fit_wf _ _ F1) as (Wj1 & _). destruct (fit_wf _ _ F2) as (Wj2 & _). cbn [wf wf_b] in Wj1, Wj2.
    exists (PUnion [BInt j1; BInt j2]). split.
    - apply Union_ok; [reflexivity|repeat constructor| |cbn; lia].
      unfold pieces_ok. cbn. split; [apply Forall_cons; [exact Wj1|apply Forall_cons; [exact Wj2|constructor]]|]. split; [lia|split; [lia|]].
      constructor; [|repeat constructor]. constructor; [|constructor]. intros v H1 H2. apply M1 in H1. apply M2 in H2. apply (Dj v); tauto.
    - right. exists j1, j2, o1, o2. split; [reflexivity|]. split; [exact Wj1|]. split; [exact Wj2|]. split; [exact Ho|]. split; [exact M1|exact M2].
  Qed.
  Lemma recip_side : forall k b, (k = One \/ k = Ext) -> fit k (PB b) -> (forall v, bmem v b -> bmem v (BInt neg)) \/ (forall v, bmem v b -> bmem v (BInt pos_)) ->
    exists r, and_ub io [BInt neg; BInt pos_] b = Ok r /\ basic r /\ fit k r.
  Proof.
    intros k b Nk F S. destruct (recip_basic k b Nk F) as (r & E & [(A & B)|(j1 & j2 & o1 & o2 & -> & W1 & W2 & Ho & M1 & M2)]); [eauto|]. exfalso.
    destruct (b_inhabited (BInt j1) W1) as (v1 & H1). destruct (b_inhabited (BInt j2) W2) as (v2 & H2). apply M1 in H1. apply M2 in H2. destruct H1 as (H1 & K1), H2 as (H2 & K2).
    destruct Ho as [(-> & ->)|(-> & ->)], S as [S|S]; apply S in K1, K2; eauto using sides_disjoint.
  Qed.
  Lemma recip_meets : forall k s, (k = One \/ k = Ext) -> fit k s -> meets k (PUnion [BInt neg; BInt pos_]) s.
  Proof.
    intros k s Nk F. unfold meets. destruct s as [|b|u].
    - exists PEmpty. split; [reflexivity|]. split; [constructor|left; now left].
    - destruct (recip_basic k b Nk F) as (r & E & [(Br & Fr)|(j1 & j2 & o1 & o2 & -> & W1 & W2 & Ho & M1 & M2)]).
      + exists r. split; [exact E|]. split; [|left; exact Br]. destruct Br as [->|(c & ->)]; cbn; auto.
      + exists (PUnion [BInt j1; BInt j2]). split; [exact E|]. assert (F1 : fit k (PB (BInt j1))) by (right; left; eauto). assert (F2 : fit k (PB (BInt j2))) by (right; left; eauto).
        split; [apply Forall_cons; [exact F1|apply Forall_cons; [exact F2|constructor]]|]. right. cbn [parts]. constructor; [|constructor; [|constructor]].
        * apply (recip_side k (BInt j1) Nk F1). destruct Ho as [(-> & _)|(-> & _)]; [left|right]; intros v H; now apply M1.
        * apply (recip_side k (BInt j2) Nk F2). destruct Ho as [(_ & ->)|(_ & ->)]; [right|left]; intros v H; now apply M2.
    - exfalso. destruct F as [K|[(i & K & _)|K]]; try discriminate. destruct Nk as [->| ->]; destruct K as (? & K); discriminate.
  Qed.

  (** ** Dispatch *)
  Lemma make_union_total : forall l, l <> [] -> Forall (fun r => wf r /\ real_set r) l -> exists r, make_union io l = Ok r /\ wf r /\ real_set r.
  Proof.
    intros l Ne F. assert (A : Forall wf l) by (eapply Forall_impl; [|exact F]; cbn; tauto). assert (B : Forall real_set l) by (eapply Forall_impl; [|exact F]; cbn; tauto).
    destruct (reduce_por_total io l Ne A B) as (r & E). exists r. split; [exact E|]. apply make_union_f in E; auto. tauto.
  Qed.
  (** what is claimed of an inverse image; without infinite numbers if c holds *)
  Definition out (c : Prop) (r : pset) : Prop := wf r /\ real_set r /\ (c -> inffree r).
  Lemma make_union_out : forall c l, l <> [] -> Forall (out c) l -> exists r, make_union io l = Ok r /\ out c r.
  Proof.
    intros c l Ne F. destruct (make_union_total l Ne) as (r & E & W & R); [eapply Forall_impl; [|exact F]; unfold out; cbn; tauto|]. exists r. split; auto. split; auto. split; auto. intros Hc.
    apply make_union_f in E; [|eapply Forall_impl; [|exact F]; unfold out; cbn; tauto]. destruct E as (_ & _ & _ & M). intros x Hx. apply M in Hx. destruct Hx as (s & Hs & Hx). rewrite Forall_forall in F. now apply (F s Hs).
  Qed.
  Definition handled (c : Prop) (k : kind) (rg : pset) (fin : list enum -> res pset) (int : interval N -> res pset) : Prop :=
    (forall vs, fit k (PB (BReal vs)) -> (forall v, bmem v (BReal vs) -> mem v rg) -> exists r, fin vs = Ok r /\ out c r) /\
    (forall i, wf_iv i -> (forall v, bmem v (BInt i) -> mem v rg) -> exists r, int i = Ok r /\ out c r).
  Lemma fit_iv : forall k i, fit k (PB (BInt i)) -> wf_iv i.
  Proof. intros k i F. exact (proj1 (fit_wf _ _ F)). Qed.
  Lemma dispatch_basic : forall c k rg fin int n s inter, wf rg -> fit k s -> handled c k rg fin int ->
    pand io rg s = Ok inter -> basic inter -> fit k inter ->
    exists r, dispatch io (S n) (Ok rg) fin int s = Ok r /\ out c r.
  Proof.
    intros c k rg fin int n s inter Wr F (Hf & Hi) E B Fi. cbn [dispatch bind]. rewrite E. cbn [bind].
    destruct (fit_wf _ _ F) as (Ws & Rs). apply pand_f in E; auto. destruct E as (_ & _ & R & M). specialize (R (or_intror Rs)).
    destruct B as [->|(d & ->)]; [exists PEmpty; repeat split; intros _ x []|]. destruct d as [vs f|vs|i]; [destruct R| |].
    - apply Hf; auto. intros v Hv. now apply M.
    - apply Hi; [now apply (fit_iv k)|]. intros v Hv. now apply M.
  Qed.
  Lemma dispatch_total : forall c k rg fin int n s, wf rg -> fit k s -> handled c k rg fin int -> meets k rg s ->
    exists r, dispatch io (S (S n)) (Ok rg) fin int s = Ok r /\ out c r.
  Proof.
    intros c k rg fin int n s Wr F H (inter & E & P & B).
    destruct inter as [|d|u].
    - apply (dispatch_basic c k rg fin int (S n) s PEmpty); auto; now left.
    - apply (dispatch_basic c k rg fin int (S n) s (PB d)); auto; [right; eauto|]. now inversion P.
    - destruct B as [[B|(d & B)]|B]; try discriminate. cbn [parts] in *.
      set (g := dispatch io (S n) (Ok rg) fin int). cbn [dispatch bind]. rewrite E. cbn [bind]. fold g. change (exists r, (do xs <- mapM g (map PB u); make_union io xs) = Ok r /\ out c r).
      assert (M : exists xs, mapM g (map PB u) = Ok xs /\ Forall (out c) xs /\ List.length xs = List.length u).
      { clear E. unfold g. clear g. induction P as [|b l Hb P IH]; [exists []; split; [reflexivity|split; [constructor|reflexivity]]|]. inversion B as [|? ? (r & Er & Br & Fr) B']; subst.
        destruct (dispatch_basic c k rg fin int n (PB b) r Wr Hb H Er Br Fr) as (x & Ex & Ox). destruct (IH B') as (xs & Exs & Fxs & L). exists (x :: xs). cbn [map mapM]. rewrite Ex. cbn [bind]. rewrite Exs. cbn. auto. }
      destruct M as (xs & -> & Fx & L). cbn [bind]. apply make_union_out; auto. intros ->. destruct u; [|discriminate].
      destruct (fit_wf _ _ F) as (Ws & _). apply pand_f in E; auto. destruct E as (Wi & _). apply wf_union_iff in Wi. destruct Wi as (_ & Wi). cbn in Wi. lia.
  Qed.

  (** ** Inverses *)
  Lemma contains_num_total : forall y (s : pset), exists b, contains io (VNum y) s = Ok b.
  Proof.
    intros y [|b|u]; cbn [contains]; eauto; [destruct b; cbn; eauto|]. generalize (u_values io u). intros l.
    induction l as [|b l IH]; cbn [anyM]; eauto. assert (exists c, bcontains (VNum y) b = Ok c) as (c & ->) by (destruct b; cbn; eauto). cbn [bind]. destruct c; eauto.
  Qed.
  Lemma contains_in : forall y (rg : pset), wf rg -> real_set rg -> mem (RNum (eR y)) rg -> contains io (VNum y) rg = Ok true.
  Proof. intros y rg W R M. destruct (contains_num_total y rg) as (b & E). rewrite E. f_equal. eapply contains_rg; eauto. Qed.
  Lemma FR1 : forall e : enum, FiniteReal [e] = Ok (PB (BReal [e])).
  Proof. reflexivity. Qed.
  Lemma tinterval_total : forall (i : interval N) a b flip, elt (eR a) (eR b) -> exists j, transform_interval i a b flip = Ok j /\ wf_iv j.
  Proof.
    intros i a b flip H. apply eltb_elt in H. assert (K : exists j, transform_interval i a b flip = Ok j) by (unfold transform_interval, Interval_; rewrite H; destruct flip; cbn; eauto).
    destruct K as (j & E). exists j. split; auto. apply tinterval in E. tauto.
  Qed.
  Lemma one_fit : forall k (e : enum), (k <> Ext -> exists a, e = Fin a) -> fit k (PB (BReal [e])).
  Proof.
    intros k e H. right. right. destruct k; [destruct H as (a & ->); [discriminate|]; eauto|eauto| |].
    all: destruct (BReal1 e) as (A & B & _ & D).
    - split; [eauto|split; [exact A|apply D; apply H; discriminate]].
    - split; [exact A|split; [exact B|apply D; apply H; discriminate]].
  Qed.
  Lemma iv_fit : forall k i, wf_iv i -> fit k (PB (BInt i)).
  Proof. intros k i W. right. left. eauto. Qed.
  Lemma many_of : forall s, fit Many s -> wf s /\ real_set s /\ inffree s.
  Proof. intros s F. destruct (fit_wf _ _ F). pose proof (fit_inffree _ _ F ltac:(discriminate)). auto. Qed.
  Lemma fit_vs : forall k vs, fit k (PB (BReal vs)) -> vs <> [] /\ ((exists x, vs = [x]) \/ k = Few \/ k = Many) /\ forall y, In y vs -> k <> Ext -> exists a, y = Fin a.
  Proof.
    intros k vs F. split; [|split].
    - destruct (fit_wf _ _ F) as (W & _). exact (proj2 W).
    - destruct F as [F|[(i & F & _)|F]]; try discriminate. destruct k; [destruct F as (a & [= ->]); eauto|destruct F as (a & [= ->]); eauto|auto|auto].
    - intros y Hy Nk. destruct (fit_inffree _ _ F Nk (eR y)) as (r & Er); [cbn; eauto|]. destruct y; try discriminate. eauto.
  Qed.
  Lemma few_union : forall l, l <> [] -> Forall (fun s : pset => exists e, s = PB (BReal [e])) l -> exists ws, make_union io l = Ok (PB (BReal ws)).
  Proof.
    intros [|s l] Ne F; [congruence|]. unfold make_union. cbn [reduceM]. inversion F as [|? ? (e & ->) Fl]; subst. clear Ne F.
    assert (Nv : exists x vs, [e] = x :: vs) by eauto. revert Nv. generalize [e]. induction Fl as [|s l (y & ->) Fl IH]; intros us (x & vs & ->); cbn [foldM]; [eauto|].
    cbn [por or_bb]. unfold FiniteReal. cbn [app is_nil negb passert bind]. apply IH. destruct (dedup eeqb (x :: vs ++ [y])) as [|z zs] eqn:E; eauto.
    exfalso. assert (K : In (eR x) (map eR (dedup eeqb (x :: vs ++ [y])))) by (apply (proj2 (dedup_num_In (x :: vs ++ [y]) (eR x))); left; reflexivity). rewrite E in K. destruct K.
  Qed.
  Lemma finv_all_total : forall finv k vs, vs <> [] -> ((exists x, vs = [x]) \/ k = Few \/ k = Many) ->
    (forall y, In y vs -> exists s, finv y = Ok s /\ fit k s /\ (k = Few -> exists e, s = PB (BReal [e]))) -> exists zs, finv_all io finv vs = Ok zs /\ fit k zs.
  Proof.
    intros finv k vs Ne Sh H. unfold finv_all. destruct Sh as [(x & ->)|Sh].
    - destruct (H x (or_introl eq_refl)) as (s & E & F & _). exists s. cbn [mapM]. rewrite E. cbn. auto.
    - assert (M : exists l, mapM finv vs = Ok l /\ Forall (fit k) l /\ Forall (fun s => k = Few -> exists e, s = PB (BReal [e])) l /\ List.length l = List.length vs).
      { clear Ne. induction vs as [|x vs IH]; [exists []; cbn; auto|]. destruct (H x (or_introl eq_refl)) as (s & E & F & G). destruct IH as (l & El & Fl & Gl & Ll); [intros; apply H; now right|].
        exists (s :: l). cbn [mapM]. rewrite E. cbn [bind]. rewrite El. cbn. auto 6. }
      destruct M as (l & -> & F & G & L). cbn [bind]. destruct (make_union_total l) as (zs & E & W & R).
      + intros ->. destruct vs; [auto|discriminate].
      + eapply Forall_impl; [|exact F]. intros s Hs. now apply (fit_wf k).
      + exists zs. split; auto. assert (If : inffree zs).
        { apply make_union_f in E.
          * destruct E as (_ & _ & _ & M). intros x Hx. apply M in Hx. destruct Hx as (s & Hs & Hx). rewrite Forall_forall in F. apply (fit_inffree k s); auto. destruct Sh as [->| ->]; discriminate.
          * eapply Forall_impl; [|exact F]. intros s Hs. now apply (fit_wf k). }
        right. right. destruct Sh as [->| ->]; [|auto]. destruct (few_union l) as (ws & E').
        * intros ->. destruct vs; [auto|discriminate].
        * eapply Forall_impl; [|exact G]. cbn. auto.
        * rewrite E in E'. injection E' as ->. split; [eauto|auto].
  Qed.

  Lemma radical_finv : forall k d (y : enum), mem (RNum (eR y)) (ExtRealsPos (N:=N)) -> (k <> Ext -> exists a, y = Fin a) -> exists e, finv_radical io d y = Ok (PB (BReal [e])) /\ (k <> Ext -> exists a, e = Fin a).
  Proof.
    intros k d y M Y. unfold finv_radical. destruct (ExtRealsPos_f (N:=N)) as (W & R & _ & _ & Nn). rewrite contains_in; auto. cbn [bind negb].
    destruct y as [|a|]; [now destruct Nn| |]; rewrite FR1; eexists; (split; [reflexivity|]); eauto.
  Qed.
  Lemma exp_finv : forall b (y : enum), 1 < toR b -> logs (N:=N) -> mem (RNum (eR y)) (ExtRealsPos (N:=N)) -> exists s, finv_exp io b y = Ok s /\ fit Ext s.
  Proof.
    intros b y Hb Lg M. unfold finv_exp. destruct (ExtRealsPos_f (N:=N)) as (W & R & _ & _ & Nn). rewrite contains_in; auto. cbn [bind negb].
    destruct y as [|a|]; [now destruct Nn| |rewrite FR1; eexists; (split; [reflexivity|]); apply one_fit; tauto].
    destruct (nleb a (nint 0)) eqn:Ea; [rewrite FR1; eexists; (split; [reflexivity|]); apply one_fit; tauto|].
    destruct (neqb b (nint 1)) eqn:Eb; [apply neqb_ok in Eb; rewrite nint1 in Eb; lra|].
    destruct (Lg b a Hb) as (z & ->). { destruct (Rlt_dec 0 (toR a)); auto. exfalso. assert (K : nleb a (nint 0) = true) by (apply nleb_ok; rewrite nint0; lra). congruence. }
    rewrite FR1. eexists; (split; [reflexivity|]); apply one_fit; tauto.
  Qed.
  Lemma log_finv : forall k b (y : enum), 1 < toR b -> powers (N:=N) -> (k <> Ext -> exists a, y = Fin a) -> exists e, finv_log io b y = Ok (PB (BReal [e])) /\ (k <> Ext -> exists a, e = Fin a).
  Proof.
    intros k b y Hb Pw Y. unfold finv_log. destruct (ExtReals_f (N:=N)) as (W & R & P). rewrite contains_in; auto. cbn [bind negb].
    destruct y as [|a|]; [rewrite FR1; eexists; (split; [reflexivity|]); eauto| |rewrite FR1; eexists; (split; [reflexivity|]); auto].
    destruct (Pw b a Hb) as (z & ->). rewrite FR1. eexists; (split; [reflexivity|]); eauto.
  Qed.
  Lemma abs_finv : forall (y : enum), mem (RNum (eR y)) (ExtRealsPos (N:=N)) -> (exists a, y = Fin a) -> exists s, finv_abs io y = Ok s /\ fit Many s.
  Proof.
    intros y M Y. assert (E : exists s, finv_abs io y = Ok s).
    { unfold finv_abs. destruct (ExtRealsPos_f (N:=N)) as (W & R & _ & _ & Nn). rewrite contains_in; auto. cbn [bind negb]. unfold FiniteReal. cbn. eauto. }
    destruct E as (s & E). exists s. split; auto. apply abs_fin in E; auto. destruct E as (A & B & C & _). right. right. auto.
  Qed.
  Lemma recip_finv : forall (y : enum), mem (RNum (eR y)) (PUnion (N:=N) [BInt neg; BInt pos_]) -> exists a, finv_recip io y = Ok (PB (BReal [Fin a])).
  Proof.
    intros y M. unfold finv_recip. rewrite range_recip_eq. cbn [bind]. destruct (range_recip_f io _ range_recip_eq) as (W & R & If & P). rewrite contains_in; auto. cbn [bind negb].
    destruct (If _ M) as (c & Ec). destruct y as [|a|]; try discriminate. destruct (neqb a (nint 0)) eqn:Z.
    - exfalso. apply neqb_ok in Z. rewrite nint0 in Z. apply (P (toR a)) in Z; auto.
    - rewrite FR1. eauto.
  Qed.

  (** intervals *)
  Lemma inj_total : forall finv (i : interval N) a b, finv (iv_a i) = Ok (PB (BReal [a])) -> finv (iv_b i) = Ok (PB (BReal [b])) -> elt (eR a) (eR b) ->
    exists j, inj_interval finv i = Ok (PB (BInt j)) /\ wf_iv j.
  Proof.
    intros finv i a b Ea Eb L. unfold inj_interval. rewrite Ea, Eb. cbn [bind the_element]. destruct (tinterval_total i a b false L) as (j & -> & W). cbn [bind]. eauto.
  Qed.
  Lemma top_in : forall i a, wf_iv (N:=N) i -> iv_a i = Fin a -> 0 <= toR a -> mem (RNum (eR (iv_b i))) (ExtRealsPos (N:=N)).
  Proof.
    intros i a Wi Ea Pa. destruct (ExtRealsPos_f (N:=N)) as (_ & _ & P & Pinf & _). destruct Wi as (L & _). rewrite Ea in L. destruct (iv_b i) as [|b|]; simpl in L; [tauto| |exact Pinf]. simpl. apply P. lra.
  Qed.
  Lemma radical_interval : forall d i, wf_iv i -> (forall v, bmem v (BInt i) -> mem v (ExtRealsPos (N:=N))) -> exists j, inj_interval (finv_radical io d) i = Ok (PB (BInt j)) /\ wf_iv j.
  Proof.
    intros d i Wi Di. destruct (iv_nonneg i Wi Di) as (a & Ea & Pa). destruct (ExtRealsPos_f (N:=N)) as (_ & _ & P & _). pose proof (top_in i a Wi Ea Pa) as Mb.
    assert (Ma : mem (RNum (eR (iv_a i))) (ExtRealsPos (N:=N))) by (rewrite Ea; simpl; now apply P).
    destruct (radical_finv Ext d (iv_a i) Ma ltac:(tauto)) as (ea & E1 & _). destruct (radical_finv Ext d (iv_b i) Mb ltac:(tauto)) as (eb & E2 & _).
    pose proof (finv_radical_eq io d _ _ E1 Ma) as Ha. pose proof (finv_radical_eq io d _ _ E2 Mb) as Hb. injection Ha as ->. injection Hb as ->. eapply inj_total; eauto.
    destruct Wi as (L & _). rewrite Ea in *. destruct (Pos2Nat.is_succ d) as (n & En). destruct (iv_b i) as [|b|]; simpl in *; auto. rewrite !npow_nat_ok, En. apply P in Mb. exact (proj1 (pow_lt_iff n _ _ Pa Mb) L).
  Qed.
  Lemma exp_interval : forall b i, 1 < toR b -> logs (N:=N) -> wf_iv i -> (forall v, bmem v (BInt i) -> mem v (ExtRealsPos (N:=N))) -> exists j, inj_interval (finv_exp io b) i = Ok (PB (BInt j)) /\ wf_iv j.
  Proof.
    intros b i Hb Lg Wi Di. destruct (iv_nonneg i Wi Di) as (a & Ea & Pa). destruct (ExtRealsPos_f (N:=N)) as (_ & _ & P & _). pose proof (top_in i a Wi Ea Pa) as Mb.
    assert (Ma : mem (RNum (eR (iv_a i))) (ExtRealsPos (N:=N))) by (rewrite Ea; simpl; now apply P).
    destruct (exp_finv b (iv_a i) Hb Lg Ma) as (sa & E1 & _). destruct (exp_finv b (iv_b i) Hb Lg Mb) as (sb & E2 & _).
    destruct (finv_exp_eq io b _ _ Hb E1 Ma) as (ea & -> & Ha). destruct (finv_exp_eq io b _ _ Hb E2 Mb) as (eb & -> & Hb'). eapply inj_total; eauto.
    destruct Wi as (L & _). rewrite Ea in *. destruct (iv_b i) as [|q|]; simpl in *; [tauto| |].
    - destruct Hb' as [(Z & _)|(Z & c & -> & Hc)]; [exfalso; lra|]. destruct Ha as [(Z' & ->)|(Z' & c' & -> & Hc')]; simpl; auto. apply (Rpower_lt_iff (toR b)); auto. lra.
    - subst eb. destruct Ha as [(_ & ->)|(_ & c & -> & _)]; simpl; auto.
  Qed.
  Lemma log_interval : forall b i, 1 < toR b -> powers (N:=N) -> wf_iv i -> exists j, inj_interval (finv_log io b) i = Ok (PB (BInt j)) /\ wf_iv j.
  Proof.
    intros b i Hb Pw Wi. destruct (log_finv Ext b (iv_a i) Hb Pw ltac:(tauto)) as (sa & E1 & _). destruct (log_finv Ext b (iv_b i) Hb Pw ltac:(tauto)) as (sb & E2 & _).
    destruct (finv_log_eq io b _ _ Hb E1) as (ea & [= ->] & Ha). destruct (finv_log_eq io b _ _ Hb E2) as (eb & [= ->] & Hb'). eapply inj_total; eauto.
    destruct Wi as (L & _). destruct (iv_a i) as [|a|], (iv_b i) as [|q|]; simpl in L; try tauto.
    - subst ea. destruct Hb' as (c & -> & Hc). simpl. rewrite nint0, Hc. apply Rpower_pos.
    - subst ea eb. simpl. auto.
    - destruct Ha as (c & -> & Hc), Hb' as (c' & -> & Hc'). simpl. rewrite Hc, Hc'. now apply Rpower_lt_iff.
    - subst eb. destruct Ha as (c & -> & _). simpl. auto.
  Qed.
  Lemma abs_interval_total : forall i, wf_iv i -> (forall v, bmem v (BInt i) -> mem v (ExtRealsPos (N:=N))) -> exists s, abs_interval io i = Ok s /\ fit Many s.
  Proof.
    intros i Wi Di. assert (E : exists s, abs_interval io i = Ok s).
    { unfold abs_interval. destruct Wi as (L & _). destruct (tinterval_total i (iv_a i) (iv_b i) false L) as (p & -> & Wp).
      destruct (tinterval_total i (eneg (iv_b i)) (eneg (iv_a i)) true) as (q & -> & Wq). { destruct (iv_a i), (iv_b i); simpl in *; auto. rewrite !nopp_ok. lra. }
      cbn [bind]. apply por_total; auto; exact I. }
    destruct E as (s & E). exists s. split; auto. apply abs_int in E; auto. right. right. tauto.
  Qed.
  Lemma recip_interval_total : forall i, wf_iv i -> (forall v, bmem v (BInt i) -> mem v (PUnion (N:=N) [BInt neg; BInt pos_])) -> exists j, recip_interval (N:=N) i = Ok (PB (BInt j)) /\ wf_iv j.
  Proof.
    intros i Wi Di. destruct (range_recip_f io _ range_recip_eq) as (_ & _ & _ & P).
    assert (Z : ~ fm (FNum 0) (PB (BInt i))). { intros H. apply (P 0); auto. apply Di. exact H. }
    rewrite iv_fm in Z. destruct Wi as (L & Wl & Wr). unfold recip_interval. destruct i as [a b lo ro]. cbn [iv_a iv_b iv_lo iv_ro] in *.
    assert (Lab : eltb a b = true) by now apply eltb_elt. rewrite Lab. rewrite andb_true_r. cbn [andb].
    unfold e0. assert (Ninv : forall x, x <> 0 -> / x = 1 * / x) by (intros; lra).
    destruct (eleb (Fin (nint 0)) a) eqn:C1.
    - destruct a as [|a|]; [discriminate| |destruct b; destruct L]. apply eleb_fin in C1. rewrite nint0 in C1.
      destruct (eltb (Fin (nint 0)) (Fin a)) eqn:C2; cbn [orb passert bind].
      + apply eltb_fin in C2. rewrite nint0 in C2.
        destruct (tinterval_total (mkIv (Fin a) b lo ro) (einv b) (einv (Fin a)) true) as (j & E & W).
        { destruct b as [|b|]; simpl in *; [tauto| |]; rewrite ?ninv_ok, ?nint0 by lra; [apply Rinv_lt_contravar; nra|now apply Rinv_0_lt_compat]. }
        rewrite E. cbn [bind]. eauto.
      + assert (A0 : toR a = 0). { destruct (Rlt_dec 0 (toR a)) as [K|]; [|lra]. exfalso. assert (T : eltb (Fin (nint 0)) (Fin a) = true) by (apply eltb_fin; rewrite nint0; lra). congruence. }
        assert (Lo : lo = true). { destruct lo; auto. exfalso. apply Z. simpl in *. destruct b as [|b|]; simpl in *; [tauto| |]; split; try lra; auto. destruct ro; lra. }
        subst lo. cbn [passert bind]. destruct (tinterval_total (mkIv (Fin a) b true ro) (einv b) PInf true) as (j & E & W); [destruct b; simpl in *; auto|]. rewrite E. cbn [bind]. eauto.
    - assert (Ha : a = NInf \/ exists c, a = Fin c /\ toR c < 0).
      { destruct a as [|a|]; [auto| |destruct b; destruct L]. right. exists a. split; auto. destruct (Rlt_dec (toR a) 0); auto. exfalso. assert (T : eleb (Fin (nint 0)) (Fin a) = true) by (apply eleb_fin; rewrite nint0; lra). congruence. }
      assert (Hb : exists c, b = Fin c /\ toR c <= 0 /\ (toR c = 0 -> ro = true)).
      { destruct b as [|b|]; [destruct a; destruct L| |].
        - exists b. split; auto. assert (K : above a lo 0) by (destruct Ha as [->|(c & -> & Hc)]; simpl; auto; destruct lo; lra).
          assert (K2 : ~ below (Fin b) ro 0) by tauto. simpl in K2. destruct ro; split; try lra; auto; intros; exfalso; lra.
        - exfalso. apply Z. split; [|exact I]. destruct Ha as [->|(c & -> & Hc)]; simpl; auto. destruct lo; lra. }
      destruct Hb as (c & -> & Hc & Hr). assert (C2 : eleb (Fin c) (Fin (nint 0)) = true) by (apply eleb_fin; now rewrite nint0). rewrite C2. cbn [andb].
      destruct (eltb (Fin c) (Fin (nint 0))) eqn:C3; cbn [orb passert bind].
      + apply eltb_fin in C3. rewrite nint0 in C3. destruct (tinterval_total (mkIv a (Fin c) lo ro) (einv (Fin c)) (einv a) true) as (j & E & W).
        { destruct Ha as [->|(d & -> & Hd)]; simpl in *; rewrite ?ninv_ok, ?nint0 by lra; [now apply Rinv_lt_0_compat|]. apply Rinv_lt_contravar; nra. }
        rewrite E. cbn [bind]. eauto.
      + assert (A0 : toR c = 0). { destruct (Rlt_dec (toR c) 0) as [K|]; [|lra]. exfalso. assert (T : eltb (Fin c) (Fin (nint 0)) = true) by (apply eltb_fin; rewrite nint0; lra). congruence. }
        rewrite (Hr A0). cbn [passert bind]. destruct (tinterval_total (mkIv a (Fin c) lo true) NInf (einv a) true) as (j & E & W); [destruct Ha as [->|(d & -> & Hd)]; simpl; auto|]. rewrite E. cbn [bind]. eauto.
  Qed.

  Lemma dispatch_total2 : forall c k rg fin int s, (2 <= fuel)%nat -> wf rg -> fit k s -> handled c k rg fin int -> meets k rg s ->
    exists r, dispatch io fuel (Ok rg) fin int s = Ok r /\ out c r.
  Proof. intros c k rg fin int s. destruct fuel as [|[|n]]; try lia. intros _. apply dispatch_total. Qed.

  (** linear polynomials *)
  Lemma linear_range : forall c0 c1, linear po c0 c1 -> poly_range io po [c0; c1] = Ok (PB (BInt line)).
  Proof.
    intros c0 c1 (_ & Er & _). assert (E : exists s, poly_range io po [c0; c1] = Ok s).
    { unfold poly_range. rewrite Er. change (Interval_ NInf PInf true true) with (Ok line). cbn [bind is_pinf is_ninf]. rewrite !FR1. cbn [bind].
      destruct (make_union_total [PB (BInt line); PB (BReal [PInf]); PB (BReal [NInf])]) as (r & E & _); [discriminate| |eauto].
      destruct (BReal1 (N:=N) PInf) as (A & B & _). destruct (BReal1 (N:=N) NInf) as (C & D & _). repeat (apply Forall_cons; [split; auto; try exact I; try exact line_wf|]). constructor. }
    destruct E as (s & E). rewrite E. f_equal. destruct (poly_range_iv io po _ _ _ _ _ _ Er E) as (i & Ei & ->). injection Ei as <-. reflexivity.
  Qed.
  Lemma linear_finv : forall c0 c1 (y : enum), linear po c0 c1 -> mem (RNum (eR y)) (PB (BInt (N:=N) line)) -> exists a, finv_poly io po [c0; c1] y = Ok (PB (BReal [Fin a])).
  Proof.
    intros c0 c1 y Ln M. unfold finv_poly. rewrite (linear_range _ _ Ln). cbn [bind]. rewrite contains_in; [|exact line_wf|exact I|exact M]. cbn [bind negb].
    destruct (iv_inffree line line_wf _ M) as (r & Er). destruct y as [|a|]; try discriminate. destruct Ln as (_ & _ & Ln). destruct (Ln a) as (c & Ec & _). unfold solve_eq. rewrite Ec. eauto.
  Qed.
  Lemma half_wf : forall up c strict, exists i : interval N, half_line up c strict = PB (BInt i) /\ wf_iv i /\ exists r, pinv io (PB (BInt i)) = Ok (PB (BInt r)) /\ wf_iv r.
  Proof.
    intros up c strict. destruct up; cbn [half_line].
    - eexists. split; [reflexivity|]. split; [repeat split; simpl; auto; discriminate|]. cbn. eexists. split; [reflexivity|]. repeat split; simpl; auto; try discriminate.
    - eexists. split; [reflexivity|]. split; [repeat split; simpl; auto; discriminate|]. cbn. eexists. split; [reflexivity|]. repeat split; simpl; auto; try discriminate. 
  Qed.
  Lemma linear_interval : forall k c0 c1 i, linear po c0 c1 -> wf_iv i -> exists s, poly_interval io po [c0; c1] i = Ok s /\ fit k s.
  Proof.
    intros k c0 c1 i (_ & _ & Ln) (L & _).
    assert (Ea : exists a na, solve_ineq io po [c0; c1] (iv_a i) (negb (iv_lo i)) = Ok a /\ pinv io a = Ok (PB (BInt na)) /\ wf_iv na).
    { destruct (iv_a i) as [|a|]; [exists PEmpty, line; split; [reflexivity|split; [reflexivity|exact line_wf]]| |destruct (iv_b i); destruct L].
      destruct (Ln a) as (c & _ & H). cbn [solve_ineq]. rewrite H. destruct (half_wf (nltb (nint 0) c1) c (negb (iv_lo i))) as (j & -> & _ & r & Er & Wr). eauto. }
    assert (Eb : exists b, solve_ineq io po [c0; c1] (iv_b i) (iv_ro i) = Ok (PB (BInt b)) /\ wf_iv b).
    { destruct (iv_b i) as [|b|]; [destruct (iv_a i); destruct L| |exists line; split; [reflexivity|exact line_wf]].
      destruct (Ln b) as (c & _ & H). cbn [solve_ineq]. rewrite H. destruct (half_wf (nltb (nint 0) c1) c (iv_ro i)) as (j & -> & Wj & _). eauto. }
    destruct Ea as (a & na & Ea & Ena & Wna), Eb as (b & Eb & Wb). unfold poly_interval. rewrite Ea, Eb. cbn [bind]. rewrite Ena. cbn [bind pand].
    destruct (meet_fit k (BInt na) b Wb (iv_fit k na Wna)) as (r & E & _ & F). eauto.
  Qed.

  (** quadratic polynomials *)
  Lemma interval_meets : forall k (o : interval N) s, wf_iv o -> k <> Many -> fit k s -> meets k (PB (BInt o)) s.
  Proof.
    intros k o s Wo Nk F. unfold meets. destruct s as [|b|u].
    - exists PEmpty. split; [reflexivity|]. split; [constructor|left; now left].
    - destruct (meet_fit k b o Wo F) as (r & E & Sh & Fr). exists r. split; [exact E|]. split; [|left; exact Sh].
      destruct Sh as [->|(c & ->)]; cbn; auto.
    - exfalso. destruct F as [K|[(i & K & _)|K]]; try discriminate. destruct k; [destruct K as (? & K)|destruct K as (? & K)|destruct K as ((? & K) & _)|tauto]; discriminate.
  Qed.
  Lemma range_total : forall cs a b lo ro, po_range po cs = Some (PRIv a b lo ro) -> elt (eR a) (eR b) ->
    exists i, poly_range io po cs = Ok (PB (BInt i)) /\ wf_iv i /\ iv_a i = a /\ iv_b i = b.
  Proof.
    intros cs a b lo ro Er L. apply eltb_elt in L. assert (Ei : exists i, Interval_ a b lo ro = Ok i) by (unfold Interval_; rewrite L; cbn; eauto). destruct Ei as (i & Ei). pose proof (Interval_wf _ _ _ _ _ Ei) as Wi.
    assert (E : exists s, poly_range io po cs = Ok s).
    { unfold poly_range. rewrite Er, Ei. cbn [bind]. rewrite !FR1. 
      destruct (BReal1 (N:=N) PInf) as (A & B & _). destruct (BReal1 (N:=N) NInf) as (C & D & _).
      assert (K : forall p q : pset, wf p /\ real_set p -> wf q /\ real_set q -> exists r, make_union io [PB (BInt i); p; q] = Ok r).
      { intros p q Hp Hq. destruct (make_union_total [PB (BInt i); p; q]) as (r & E & _); [discriminate| |eauto]. apply Forall_cons; [split; [exact Wi|exact I]|]. apply Forall_cons; auto. }
      destruct (is_pinf b), (is_ninf a); cbn [bind]; apply K; auto; split; exact I. }
    destruct E as (s & E). destruct (poly_range_iv io po _ _ _ _ _ _ Er E) as (j & Ej & ->). rewrite Ei in Ej. injection Ej as <-. exists i. split; [exact E|]. split; [exact Wi|].
    unfold Interval_ in Ei. rewrite L in Ei. cbn in Ei. injection Ei as <-. auto.
  Qed.
  Lemma parabola_range : forall c0 c1 c2, parabola po c0 c1 c2 -> exists o, poly_range io po [c0; c1; c2] = Ok (PB (BInt o)) /\ wf_iv o.
  Proof.
    intros c0 c1 c2 (m & v & _ & _ & P). destruct (nltb (nint 0) c2); destruct P as (Er & _); (destruct (range_total _ _ _ _ _ Er) as (i & E & W & _); [exact I|eauto]).
  Qed.
  Lemma iv_sub : forall i o : interval N, wf_iv i -> wf_iv o -> (forall v, bmem v (BInt i) -> bmem v (BInt o)) -> pos (iv_a o) <= pos (iv_a i) /\ pos (iv_b i) <= pos (iv_b o).
  Proof.
    intros i o Wi Wo S. pose proof Wi as Wi'. apply wf_iv_cases in Wi'. destruct Wi' as (Li & _).
    assert (K : forall a b : enum, pos a < pos b -> pos (iv_a i) <= pos a -> pos b <= pos (iv_b i) -> exists r, iv_mem (N:=N) (Fin r) i /\ iv_mem (N:=N) (Fin r) o /\ pos a < ord (Fin r) < pos b).
    { intros a b L La Lb. destruct (Interval_ok a b true true L) as (j & _ & Ea & Eb & El & Er & Wj). destruct (iv_inhabited j Wj) as (r & Hr). exists r. apply iv_mem_pm in Hr. unfold pm in Hr. rewrite Ea, Eb, El, Er in Hr. cbn [orb] in Hr.
      assert (Hi : iv_mem (Fin r) i) by (apply iv_mem_pm; unfold pm; destruct (iv_lo i), (iv_ro i); lra). split; auto. split; [exact (S (RNum (Fin r)) Hi)|lra]. }
    split; apply Rnot_lt_le; intros H.
    - destruct (Rle_dec (pos (iv_b i)) (pos (iv_a o))) as [L|L].
      + destruct (K (iv_a i) (iv_b i)) as (r & _ & Ho & Hr); try lra. apply iv_mem_pm in Ho. unfold pm in Ho. destruct (iv_lo o); lra.
      + destruct (K (iv_a i) (iv_a o)) as (r & _ & Ho & Hr); try lra. apply iv_mem_pm in Ho. unfold pm in Ho. destruct (iv_lo o); lra.
    - destruct (Rle_dec (pos (iv_b o)) (pos (iv_a i))) as [L|L].
      + destruct (K (iv_a i) (iv_b i)) as (r & _ & Ho & Hr); try lra. apply iv_mem_pm in Ho. unfold pm in Ho. destruct (iv_ro o); lra.
      + destruct (K (iv_b o) (iv_b i)) as (r & _ & Ho & Hr); try lra. apply iv_mem_pm in Ho. unfold pm in Ho. destruct (iv_ro o); lra.
  Qed.
  Lemma pos_fin : forall a b : num N, pos (Fin a) <= pos (Fin b) <-> toR a <= toR b.
  Proof. intros a b. unfold pos. rewrite <- ord_le. unfold ele. simpl. split; [intros [H|[= H]]; lra|]. intros H. destruct (Req_dec (toR a) (toR b)); [right; congruence|left; lra]. Qed.
  Lemma parabola_finv : forall c0 c1 c2 o (y : enum), parabola po c0 c1 c2 -> poly_range io po [c0; c1; c2] = Ok (PB (BInt o)) -> mem (RNum (eR y)) (PB (BInt o)) -> exists s, finv_poly io po [c0; c1; c2] y = Ok s /\ fit Many s.
  Proof.
    intros c0 c1 c2 o y Pb Er M. destruct (parabola_range _ _ _ Pb) as (o' & Eo & Wo). rewrite Er in Eo. injection Eo as <-.
    assert (E : exists s, finv_poly io po [c0; c1; c2] y = Ok s).
    { unfold finv_poly. rewrite Er. cbn [bind]. rewrite contains_in; [|exact Wo|exact I|exact M]. cbn [bind negb].
      destruct (iv_inffree o Wo _ M) as (x & Ex). destruct y as [|a|]; try discriminate. unfold solve_eq. destruct Pb as (m & v & _ & Hm & P).
      destruct (Req_dec (toR a) (toR m)) as [A|A]; [rewrite (Hm a A); eauto|]. apply iv_mem_pm in M. unfold pm in M.
      destruct (nltb (nint 0) c2); destruct P as (Rg & _ & P); (destruct (range_total _ _ _ _ _ Rg) as (o' & Eo & _ & Ea & Eb); [exact I|]); rewrite Er in Eo; injection Eo as <-; rewrite Ea, Eb in M.
      - assert (L : pos (Fin m) <= pos (Fin a)) by (unfold pos in *; destruct (iv_lo o); lra). apply pos_fin in L. destruct (P a) as (r & s & _ & -> & _); [lra|eauto].
      - assert (L : pos (Fin a) <= pos (Fin m)) by (unfold pos in *; destruct (iv_ro o); lra). apply pos_fin in L. destruct (P a) as (r & s & _ & -> & _); [lra|eauto]. }
    destruct E as (s & E). exists s. split; auto. destruct (poly_fin io po [c0; c1; c2] _ y s Er E M) as (A & B & C & _). right. right. auto.
  Qed.
  Lemma iv_touch : forall (i o : interval N) s, iv_and i o = Ok s -> s = PEmpty \/ (exists j, s = PB (BInt j)) \/ eeqb (iv_b i) (iv_a o) = true \/ eeqb (iv_a i) (iv_b o) = true.
  Proof.
    intros i o s H. unfold iv_and in H.
    repeat match type of H with
    | (if ?b then _ else _) = _ => let E := fresh "E" in destruct b eqn:E
    | (do i <- ?m; _) = _ => destruct m; [cbn [bind] in H|discriminate]
    end; injection H as <-; eauto.
  Qed.
  Lemma outside_ok : forall (r s : num N) (st : bool), toR r < toR s \/ toR r = toR s /\ st = true -> wf (outside r s st).
  Proof.
    intros r s st H. apply wf_union_iff. split; [|cbn; lia]. unfold pieces_ok. cbn. split.
    - apply Forall_cons; [repeat split; simpl; auto; discriminate|]. apply Forall_cons; [repeat split; simpl; auto; discriminate|constructor].
    - split; [lia|split; [lia|]]. constructor; [|repeat constructor]. constructor; [|constructor]. intros [x|q] H1 H2; [|exact H1].
      change (iv_mem (N:=N) x (mkIv NInf (Fin r) true st)) in H1. change (iv_mem (N:=N) x (mkIv (Fin s) PInf st true)) in H2. apply iv_mem_pm in H1, H2. unfold pm in *. cbn [iv_a iv_b iv_lo iv_ro] in *.
      destruct H as [H|(H & ->)]; [|assert (pos (Fin r) = pos (Fin s)) by (apply Rle_antisym; apply pos_fin; lra); lra].
      assert (pos (Fin r) < pos (Fin s)) by (unfold pos; now apply ord_lt). destruct st; lra.
  Qed.
  Lemma outside_meet : forall (r s : num N) st (o : interval N), wf (outside r s st) -> wf_iv o ->
    (forall e, iv_a o = Fin e \/ iv_b o = Fin e -> toR e <> toR r /\ toR e <> toR s) ->
    exists q, and_ub io [BInt (mkIv NInf (Fin r) true st); BInt (mkIv (Fin s) PInf st true)] (BInt o) = Ok q.
  Proof.
    intros r s st o W Wo H. apply and_ub_ivs_total; [exact W|repeat constructor|exact Wo|].
    intros i q Hi E. assert (Hi' : i = mkIv NInf (Fin r) true st \/ i = mkIv (Fin s) PInf st true).
    { apply wf_union_iff in W. destruct W as (P & _). pose proof (u_intervals_perm io _ P) as Q. cbn in Q. apply Permutation_length_2_inv in Q. destruct Q as [Q|Q]; rewrite Q in Hi; cbn in Hi; intuition. }
    cbn [and_bb] in E. destruct (iv_touch _ _ _ E) as [K|[K|[K|K]]]; auto; exfalso; apply eeqb_eR in K; destruct Wo as (L & _); destruct Hi' as [->| ->]; cbn [iv_a iv_b] in K.
    - destruct (iv_a o) as [|e|] eqn:Ea; try discriminate. injection K as K. destruct (H e (or_introl eq_refl)). congruence.
    - destruct (iv_a o) as [|e|] eqn:Ea; try discriminate. destruct (iv_b o); destruct L.
    - destruct (iv_b o) as [|e|] eqn:Ea; try discriminate. destruct (iv_a o); destruct L.
    - destruct (iv_b o) as [|e|] eqn:Ea; try discriminate. injection K as K. destruct (H e (or_intror eq_refl)). congruence.
  Qed.
  Lemma inv_between : forall (r s : num N) st, toR r < toR s -> pinv io (between r s st) = Ok (outside r s (negb st)).
  Proof.
    intros r s st L. unfold between, outside. cbn [pinv inv_b]. unfold inv_iv. cbn [iv_a iv_b iv_lo iv_ro is_ninf is_pinf]. unfold Interval_. cbn [eltb passert bind is_ninf is_pinf orb]. rewrite !orb_false_r, ?orb_true_r.
    pose proof (outside_ok r s (negb st) (or_introl L)) as W. apply wf_union_iff in W. destruct W as (P & Ln). apply Union_ok; [reflexivity|repeat constructor|exact P|exact Ln].
  Qed.
  Lemma inv_point : forall v : num N, pinv io (PB (BReal [Fin v])) = Ok (outside v v true).
  Proof.
    intros v. unfold outside. cbn [pinv inv_b]. unfold inv_real. cbn [sort insert gaps]. unfold Ropen, Lopen, Interval_. cbn [eltb passert bind is_ninf is_pinf orb map gaps]. unfold Lopen, Interval_. cbn [eltb passert bind is_ninf is_pinf orb map].
    pose proof (outside_ok v v true (or_intror (conj eq_refl eq_refl))) as W. apply wf_union_iff in W. destruct W as (P & Ln). apply Union_ok; [reflexivity|repeat constructor|exact P|exact Ln].
  Qed.
  Lemma inv_outside : forall (r s : num N) st, toR r < toR s -> pinv io (outside r s st) = Ok (between r s (negb st)).
  Proof.
    intros r s st L. pose proof (outside_ok r s st (or_introl L)) as W. unfold outside in *. cbn [pinv]. apply wf_union_iff in W. destruct W as (P & _). pose proof (u_values_perm io _ P) as Q. apply Permutation_length_2_inv in Q.
    assert (E1 : inv_b io (BInt (mkIv NInf (Fin r) true st)) = Ok (PB (BInt (mkIv (Fin r) PInf (negb st) true)))) by (cbn; now rewrite orb_false_r).
    assert (E2 : inv_b io (BInt (mkIv (Fin s) PInf st true)) = Ok (PB (BInt (mkIv NInf (Fin s) true (negb st))))) by (cbn; now rewrite orb_false_r).
    assert (Lt : eltb (Fin r) (Fin s) = true) by now apply eltb_fin. assert (Le : eleb (Fin r) (Fin s) = true) by (apply eleb_fin; lra).
    assert (Ne : eeqb (Fin r) (Fin s) = false) by (destruct (eeqb (Fin r) (Fin s)) eqn:E; auto; apply eeqb_eR in E; injection E; lra).
    assert (Ne' : eeqb (Fin s) (Fin r) = false) by (destruct (eeqb (Fin s) (Fin r)) eqn:E; auto; apply eeqb_eR in E; injection E; lra).
    unfold between. destruct Q as [-> | ->]; cbn [mapM]; rewrite E1, E2; cbn [bind reduceM foldM pand and_bb]; unfold iv_and; cbn [iv_eqb iv_a iv_b iv_lo iv_ro eeqb andb]; unfold iv_contains; cbn [iv_a iv_b iv_lo iv_ro]; unfold eleb in *; cbn [eltb eeqb orb] in *.
    - destruct st; cbn [negb andb orb]; rewrite ?Lt, ?Le; cbn [andb orb]; try rewrite Ne; unfold Interval_; cbn [eltb]; rewrite Lt; cbn; reflexivity.
    - destruct st; cbn [negb andb orb]; rewrite ?Lt, ?Le; cbn [andb orb]; try rewrite Ne'; unfold Interval_; cbn [eltb]; rewrite Lt; cbn; reflexivity.
  Qed.
  Lemma eq_roots : forall cs b ws, po_eq po cs b = Some (PB (BReal ws)) -> forall r, In (Fin r) ws -> Rpoly cs (toR r) = toR b.
  Proof.
    intros cs b ws E r Hr. destruct (po_eq_ok _ po cs b _ E) as (_ & _ & M). destruct (proj1 (M (RNum (Fin (toR r))))) as (x & Ex & Px); [cbn; exists (Fin r); auto|]. injection Ex as ->. exact Px.
  Qed.
  Lemma parabola_interval : forall c0 c1 c2 o i, parabola po c0 c1 c2 -> poly_range io po [c0; c1; c2] = Ok (PB (BInt o)) -> wf_iv i -> (forall v, bmem v (BInt i) -> mem v (PB (BInt o))) ->
    exists s, poly_interval io po [c0; c1; c2] i = Ok s /\ fit Many s.
  Proof.
    intros c0 c1 c2 o i Pb Er Wi Di.
    assert (E : exists s, poly_interval io po [c0; c1; c2] i = Ok s).
    2: { destruct E as (s & E). exists s. split; auto. apply poly_int in E; auto. right. right. tauto. }
    destruct (parabola_range _ _ _ Pb) as (o' & Eo & Wo). rewrite Er in Eo. injection Eo as <-. destruct (iv_sub i o Wi Wo Di) as (Sa & Sb).
    destruct Pb as (m & v & Hv & Hm & P). unfold poly_interval. set (cs := [c0; c1; c2]) in *.
    assert (Bas : forall b c : interval N, wf_iv b -> wf_iv c -> exists s, pand io (PB (BInt b)) (PB (BInt c)) = Ok s) by (intros b c Wb Wc; destruct (and_bb_ok (BInt b) (BInt c) Wb Wc) as (s & E & _); exists s; exact E).
    assert (L : elt (eR (iv_a i)) (eR (iv_b i))) by apply Wi.
    destruct (nltb (nint 0) c2); destruct P as (Rg & Pm & P); (destruct (range_total _ _ _ _ _ Rg) as (o' & Eo & _ & Ea & Eb); [exact I|]); rewrite Er in Eo; injection Eo as <-; rewrite Ea in Sa; rewrite Eb in Sb.
    - (* upwards *)
      assert (A : exists a, iv_a i = Fin a /\ toR m <= toR a). { pose proof (pos_bound (Fin m)). destruct (iv_a i) as [|a|]; [|exists a; split; auto; now apply pos_fin|destruct (iv_b i); destruct L].
        exfalso. assert (K : pos (N:=N) NInf < pos (Fin m)) by (unfold pos; apply ord_lt; exact I). lra. }
      destruct A as (a & Ha & Lm). rewrite Ha in *.
      assert (Na : exists sa na, solve_ineq io po cs (Fin a) (negb (iv_lo i)) = Ok sa /\ pinv io sa = Ok na /\
        (na = PB (BInt line) \/ exists r s st, na = outside r s st /\ wf (outside r s st) /\ Rpoly cs (toR r) = toR a /\ Rpoly cs (toR s) = toR a)).
      { cbn [solve_ineq]. destruct (Req_dec (toR a) (toR m)) as [A|A].
        - destruct (Pm a A) as (P1 & P2). destruct (iv_lo i); cbn [negb]; [rewrite P2|rewrite P1]; do 2 eexists; (split; [reflexivity|]).
          + split; [apply inv_point|]. right. exists v, v, true. split; [reflexivity|]. split; [apply outside_ok; right; auto|]. rewrite <- Hv. auto.
          + split; [reflexivity|]. now left.
        - destruct (P a) as (r & s & Lrs & Eq & Iq); [lra|]. rewrite Iq. do 2 eexists. split; [reflexivity|]. split; [now apply inv_between|]. right. exists r, s. eexists. split; [reflexivity|]. split; [apply outside_ok; now left|].
          split; eapply eq_roots; eauto; cbn; auto. }
      assert (Nb : exists b, solve_ineq io po cs (iv_b i) (iv_ro i) = Ok (PB (BInt b)) /\ wf_iv b /\ forall e, iv_a b = Fin e \/ iv_b b = Fin e -> exists q, iv_b i = Fin q /\ Rpoly cs (toR e) = toR q).
      { destruct (iv_b i) as [|b|]; [destruct L| |exists line; split; [reflexivity|]; split; [exact line_wf|]; cbn; intros e [K|K]; discriminate].
        cbn in L. cbn [solve_ineq]. destruct (P b) as (r & s & Lrs & Eq & Iq); [lra|]. rewrite Iq. eexists. split; [reflexivity|]. split; [repeat split; simpl; auto; discriminate|]. cbn [iv_a iv_b].
        intros e K. exists b. split; auto. destruct K as [[= <-]|[= <-]]; eapply eq_roots; eauto; cbn; auto. }
      destruct Na as (sa & na & -> & Ena & Na), Nb as (b & -> & Wb & Hb). cbn [bind]. rewrite Ena. cbn [bind].
      destruct Na as [->|(r & s & st & -> & Wrs & Pr & Ps)]; [apply Bas; auto; exact line_wf|]. unfold outside. cbn [pand]. apply outside_meet; auto.
      intros e He. destruct (Hb e He) as (q & Eq & Pq). rewrite Eq in L. cbn in L. split; intros K; rewrite K in Pq; lra.
    - (* downwards *)
      assert (B : exists b, iv_b i = Fin b /\ toR b <= toR m). { destruct (iv_b i) as [|b|]; [destruct (iv_a i); destruct L|exists b; split; auto; now apply pos_fin|].
        exfalso. assert (K : pos (Fin m) < pos (N:=N) PInf) by (unfold pos; apply ord_lt; exact I). lra. }
      destruct B as (b & Hb & Lm). rewrite Hb in *.
      assert (Nb : exists sb, solve_ineq io po cs (Fin b) (iv_ro i) = Ok sb /\
        (sb = PB (BInt line) \/ exists r s st, sb = outside r s st /\ wf (outside r s st) /\ Rpoly cs (toR r) = toR b /\ Rpoly cs (toR s) = toR b)).
      { cbn [solve_ineq]. destruct (Req_dec (toR b) (toR m)) as [A|A].
        - destruct (Pm b A) as (P1 & P2). destruct (iv_ro i); [rewrite P1|rewrite P2]; eexists; (split; [reflexivity|]); [|now left].
          right. exists v, v, true. split; [reflexivity|]. split; [apply outside_ok; right; auto|]. rewrite <- Hv. auto.
        - destruct (P b) as (r & s & Lrs & Eq & Iq); [lra|]. rewrite Iq. eexists. split; [reflexivity|]. right. exists r, s. eexists. split; [reflexivity|]. split; [apply outside_ok; now left|].
          split; eapply eq_roots; eauto; cbn; auto. }
      assert (Na : exists sa na, solve_ineq io po cs (iv_a i) (negb (iv_lo i)) = Ok sa /\ pinv io sa = Ok (PB (BInt na)) /\ wf_iv na /\ forall e, iv_a na = Fin e \/ iv_b na = Fin e -> exists q, iv_a i = Fin q /\ Rpoly cs (toR e) = toR q).
      { destruct (iv_a i) as [|a|]; [exists PEmpty, line; split; [reflexivity|]; split; [reflexivity|]; split; [exact line_wf|]; cbn; intros e [K|K]; discriminate| |destruct L].
        cbn in L. cbn [solve_ineq]. destruct (P a) as (r & s & Lrs & Eq & Iq); [lra|]. rewrite Iq. do 2 eexists. split; [reflexivity|]. split; [now apply inv_outside|]. split; [repeat split; simpl; auto; discriminate|]. cbn [iv_a iv_b].
        intros e K. exists a. split; auto. destruct K as [[= <-]|[= <-]]; eapply eq_roots; eauto; cbn; auto. }
      destruct Na as (sa & na & -> & Ena & Wna & Hna), Nb as (sb & -> & Nb). cbn [bind]. rewrite Ena. cbn [bind].
      destruct Nb as [->|(r & s & st & -> & Wrs & Pr & Ps)]; [apply Bas; auto; exact line_wf|]. unfold outside. cbn [pand]. apply outside_meet; auto.
      intros e He. destruct (Hna e He) as (q & Eq & Pq). rewrite Eq in L. cbn in L. split; intros K; rewrite K in Pq; lra.
  Qed.

  (** ** Inversion of a chain *)
  Lemma inversion_total : forall c k k' rg u finv int,
    (forall y, mem (RNum (eR y)) rg -> (k <> Ext -> exists a, y = Fin a) -> exists s, finv y = Ok s /\ fit k' s /\ (k' = Few -> exists e, s = PB (BReal [e]))) ->
    (forall i, wf_iv i -> (forall v, bmem v (BInt i) -> mem v rg) -> exists s, int i = Ok s /\ fit k' s) ->
    (k = Few \/ k = Many -> k' = Few \/ k' = Many) ->
    (forall s, fit k' s -> exists r, u s = Ok r /\ out c r) ->
    handled c k rg (fun vs => do zs <- finv_all io finv vs; u zs) (fun i => do zs <- int i; u zs).
  Proof.
    intros c k k' rg u finv int Hf Hi Hk Hu. split.
    - intros vs F Mv. destruct (fit_vs k vs F) as (Ne & Sh & Fi). destruct (finv_all_total finv k' vs Ne) as (zs & E & Fz).
      + destruct Sh as [Sh|Sh]; auto.
      + intros y Hy. apply Hf; [apply Mv; cbn; eauto|]. intros Nk. now apply Fi.
      + rewrite E. cbn [bind]. now apply Hu.
    - intros i Wi Mi. destruct (Hi i Wi Mi) as (s & E & F). rewrite E. cbn [bind]. now apply Hu.
  Qed.
  Lemma one_out : forall k (m : res pset), (exists e, m = Ok (PB (BReal [e])) /\ (k <> Ext -> exists a, e = Fin a)) -> exists s, m = Ok s /\ fit k s /\ (k = Few -> exists e, s = PB (BReal [e])).
  Proof. intros k m (e & -> & H). eexists. split; [reflexivity|]. split; [now apply one_fit|eauto]. Qed.
  Lemma infs1 : Forall (fun x : enum => is_inf x = true) [NInf; PInf]. Proof. repeat constructor. Qed.
  Lemma infs2 : Forall (fun x : enum => is_inf x = true) [PInf]. Proof. repeat constructor. Qed.
  Lemma iv_out : forall k (m : res pset), (exists j, m = Ok (PB (BInt j)) /\ wf_iv j) -> exists s, m = Ok s /\ fit k s.
  Proof. intros k m (j & -> & W). eexists. split; [reflexivity|]. now apply iv_fit. Qed.

  Theorem invert_out : forall t k s, (2 <= fuel)%nat -> chain po k t -> fit k s -> exists r, invert io po fuel t s = Ok r /\ out (calm k t) r.
  Proof.
    intros t k s Hfu. revert k s.
    destruct (ExtRealsPos_f (N:=N)) as (Wp & _). destruct (ExtReals_f (N:=N)) as (We & _).
    induction t; intros q s C F; try (destruct C; fail); cbn [invert chain calm range] in *.
    - apply (dispatch_total2 _ q); auto; [|apply cap_meets; auto using infs1]. split; [|intros i Wi _; eexists; split; [reflexivity|split; [exact Wi|split; [exact I|intros _; now apply iv_inffree]]]].
      intros vs Fv _. eexists. split; [reflexivity|]. split; [now apply (fit_wf q)|]. split; [now apply (fit_wf q)|]. intros Nq. now apply (fit_inffree q).
    - apply (dispatch_total2 _ q); auto; [|apply cap_meets; auto using infs2]. apply (inversion_total _ q q); [| |auto|intros s0 F0; now apply (IHt q)].
      + intros y M Y. apply one_out. now apply radical_finv.
      + intros i Wi Di. apply iv_out. now apply radical_interval.
    - destruct C as (Hb & Lg & Nk & C). apply (dispatch_total2 _ q); auto; [|apply cap_meets; auto using infs2]. apply (inversion_total _ q Ext); [| | |intros s0 F0; now apply (IHt Ext)].
      + intros y M _. destruct (exp_finv base y Hb Lg M) as (r & E & F'). exists r. split; [exact E|split; [exact F'|discriminate]].
      + intros i Wi Di. apply iv_out. now apply exp_interval.
      + destruct Nk as [->| ->]; intros [K|K]; discriminate.
    - destruct C as (Hb & Pw & C). apply (dispatch_total2 _ q); auto; [|apply cap_meets; auto using infs1]. apply (inversion_total _ q q); [| |auto|intros s0 F0; now apply (IHt q)].
      + intros y _ Y. apply one_out. now apply log_finv.
      + intros i Wi _. apply iv_out. now apply log_interval.
    - destruct C as (Nk & C). apply (dispatch_total2 _ q); auto; [|apply cap_meets; auto using infs2]. apply (inversion_total _ q Many); [| |auto|intros s0 F0; now apply (IHt Many)].
      + intros y M Y. destruct (abs_finv y M (Y Nk)) as (r & E & F'). exists r. split; [exact E|split; [exact F'|discriminate]].
      + intros i Wi Di. now apply abs_interval_total.
    - destruct C as (Nk & C). rewrite range_recip_eq. apply (dispatch_total2 _ q); auto using recip_wf; [|now apply recip_meets]. apply (inversion_total _ q One); [| | |intros s0 F0; now apply (IHt One)].
      + intros y M _. apply one_out. destruct (recip_finv y M) as (a & E). exists (Fin a). eauto.
      + intros i Wi Di. apply iv_out. now apply recip_interval_total.
      + destruct Nk as [->| ->]; intros [K|K]; discriminate.
    - destruct coeffs as [|c0 [|c1 [|c2 [|]]]]; try contradiction.
      + destruct C as (Ln & C). rewrite (linear_range _ _ Ln). apply (dispatch_total2 _ q); auto; [exact line_wf| |now apply line_meets]. apply (inversion_total _ q (lower q)); [| | |intros s0 F0; now apply (IHt (lower q))].
        * intros y M _. apply one_out. destruct (linear_finv c0 c1 y Ln M) as (a & E). exists (Fin a). eauto.
        * intros i Wi _. now apply linear_interval.
        * destruct q; cbn; intros [K|K]; try discriminate; auto.
      + destruct C as (Pb & Nk & C). destruct (parabola_range _ _ _ Pb) as (o & Eo & Wo). rewrite Eo. apply (dispatch_total2 _ q); auto; [|now apply interval_meets]. apply (inversion_total _ q Many); [| |auto|intros s0 F0; now apply (IHt Many)].
        * intros y M _. destruct (parabola_finv c0 c1 c2 o y Pb Eo M) as (r & E & F'). exists r. split; [exact E|split; [exact F'|discriminate]].
        * intros i Wi Di. now apply (parabola_interval c0 c1 c2 o).
  Qed.
  Theorem invert_total : forall t k s, (2 <= fuel)%nat -> chain po k t -> fit k s -> exists r, invert io po fuel t s = Ok r /\ wf r /\ real_set r.
  Proof. intros t k s Hf C F. destruct (invert_out t k s Hf C F) as (r & E & W & R & _). eauto. Qed.

  (** ** Solving *)
  Lemma bits_meet : pand io bits (PB (BReal [bit (N:=N) true])) = Ok (PB (BReal [bit true])).
  Proof.
    assert (E0 : eeqb (bit (N:=N) false) (bit true) = false). { cbn. destruct (neqb (nint 0) (nint 1)) eqn:E; auto. apply neqb_ok in E. rewrite nint0, nint1 in E. lra. }
    assert (E1 : eeqb (bit (N:=N) true) (bit true) = true) by (cbn; now apply neqb_ok).
    unfold bits. cbn [pand and_bb]. unfold and_real_real. cbn [filter inb existsb]. rewrite E0, E1. reflexivity.
  Qed.
  Lemma dispatch_bits : forall fin int, (1 <= fuel)%nat -> dispatch io fuel (Ok bits) fin int (PB (BReal [bit true])) = fin [bit true].
  Proof. intros fin int. destruct fuel as [|n]; [lia|]. intros _. cbn [dispatch bind]. rewrite bits_meet. reflexivity. Qed.
  Lemma invert_basic : forall k t v, (1 <= fuel)%nat -> k <> KNom -> invert io po fuel (EBasic k t v) (PB (BReal [bit true])) = invert io po fuel t v.
  Proof.
    intros k t v Hf Nk. assert (E1 : eeqb (bit (N:=N) true) (bit true) = true) by (cbn; now apply neqb_ok).
    destruct k; [| |tauto]; cbn [invert range]; rewrite dispatch_bits by exact Hf; unfold finv_all, finv_event; cbn [mapM]; rewrite E1; reflexivity.
  Qed.
  Lemma chained_fit : forall e, chained po e -> exists k j t v, e = EBasic j t v /\ j <> KNom /\ chain po k t /\ fit k v.
  Proof.
    intros e C. destruct e; try contradiction. destruct k; try contradiction; cbn in C.
    - destruct values as [|[| |i]|]; try contradiction. destruct C as (W & C). exists One. do 3 eexists. split; [reflexivity|]. split; [discriminate|]. split; [exact C|now apply iv_fit].
    - destruct values as [|[|vs|]|]; try contradiction.
      assert (K : chain po One e /\ (exists a, vs = [Fin a]) \/ wf_b (BReal vs) /\ inffree (PB (BReal vs)) /\ chain po Few e) by (destruct vs as [|[|a|] [|]]; try (right; exact C); left; eauto).
      destruct K as [(K & a & ->)|(W & I & K)]; [exists One|exists Few]; do 3 eexists; (split; [reflexivity|]); (split; [discriminate|]); (split; [exact K|]).
      + apply one_fit. eauto.
      + right. right. split; [eauto|split; [exact W|exact I]].
  Qed.
  Lemma chain_symbols : forall t k, chain po k t -> exists x, symbols t = [x].
  Proof.
    induction t; intros q C; try contradiction; cbn [symbols chain] in *; eauto.
    - destruct C as (_ & _ & _ & C). eauto.
    - destruct C as (_ & _ & C). eauto.
    - destruct C as (_ & C). eauto.
    - destruct C as (_ & C). eauto.
    - destruct coeffs as [|c0 [|c1 [|c2 [|]]]]; try contradiction; [destruct C as (_ & C)|destruct C as (_ & _ & C)]; eauto.
  Qed.
  Lemma chained_total : forall e, (2 <= fuel)%nat -> chained po e -> exists r, invert io po fuel e (PB (BReal [bit true])) = Ok r /\ wf r /\ real_set r.
  Proof.
    intros e Hf C. destruct (chained_fit e C) as (k & j & t & v & -> & Nj & Ct & Fv). rewrite invert_basic by (auto; lia). now apply (invert_total t k).
  Qed.
  Lemma dedup_same : forall (x : string) l, (forall y, In y l -> y = x) -> (List.length (dedup String.eqb l) <= 1)%nat.
  Proof.
    intros x l H. assert (Nd : NoDup (dedup String.eqb l)) by apply dedup_string_NoDup. assert (Hd : forall y, In y (dedup String.eqb l) -> y = x) by (intros y Hy; apply H; now apply dedup_string_In).
    destruct (dedup String.eqb l) as [|a [|b m]]; cbn; try lia. exfalso. inversion Nd as [|? ? K _]; subst. apply K. left. rewrite (Hd a), (Hd b); auto; cbn; auto.
  Qed.
  Theorem solve_total : forall e, (2 <= fuel)%nat -> solvable po e -> exists r, solve io po fuel e = Ok r /\ wf r /\ real_set r.
  Proof.
    intros e Hf H. assert (K : chained po e \/ exists l, e = EOr l) by (destruct e; cbn in H; try tauto; eauto). unfold solve.
    destruct K as [C|(l & ->)].
    - destruct (chained_fit e C) as (k & j & t & v & -> & Nj & Ct & Fv). cbn [id_values]. destruct (chain_symbols t k Ct) as (x & Ex).
      assert (D : (exists y, t = TId y) \/ id_values (EBasic j t v) = None) by (destruct t; eauto). destruct D as [(y & ->)|D].
      + exists v. split; [reflexivity|]. now apply (fit_wf k).
      + cbn [id_values] in D. rewrite D. cbn [symbols]. rewrite Ex. cbn [List.length Nat.ltb Nat.leb]. now apply chained_total.
    - cbn [id_values]. cbn [solvable] in H. destruct H as (Ne & Cl & x & Sx). cbn [symbols].
      assert (L : (List.length (sunions (map symbols l)) <= 1)%nat).
      { unfold sunions. apply (dedup_same x). intros y Hy. apply in_concat in Hy. destruct Hy as (m & Hm & Hy). apply in_map_iff in Hm. destruct Hm as (e & <- & He). rewrite Forall_forall in Sx. rewrite (Sx e He) in Hy. destruct Hy as [<-|[]]. reflexivity. }
      replace (Nat.ltb 1 _) with false by (symmetry; apply Nat.ltb_ge; exact L).
      cbn [invert range]. rewrite dispatch_bits by lia.
      assert (M : exists xs, mapM (fun e => invert io po fuel e (PB (BReal [bit true]))) l = Ok xs /\ Forall (fun r => wf r /\ real_set r) xs /\ List.length xs = List.length l).
      { clear -Hf Cl. induction Cl as [|e l C Cl IH]; [exists []; cbn; auto|]. destruct (chained_total e Hf C) as (r & E & W & R). destruct IH as (xs & Ex & Fx & L). exists (r :: xs). cbn [mapM]. rewrite E. cbn [bind]. rewrite Ex. cbn. auto. }
      destruct M as (xs & -> & Fx & Lx). cbn [bind]. apply make_union_total; auto. intros ->. destruct l; [auto|discriminate].
  Qed.
End Total.
