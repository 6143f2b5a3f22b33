(** Conditioning on factored events. *)
From Coq Require Import List Bool String Reals Lra Lia ZArith QArith Qreals FunctionalExtensionality Permutation.
From Verif Require Import Base Num Sets SetSpec SetIv SetProofs SetOr SetOps SetAlg SetBuilt
  Poly Trans TransSpec TransFacts PolyProofs InvProofs InvMain EvProofs ArithProofs
  Dnf DnfSpec DnfProofs DnfUnion Logs Spe SpeSpec SpeFacts SpeRect LeafProofs LeafEvents LeafCond SpeCons LeafGiven MemoProofs NormSorts LogprobProofs LogprobTop SpeEq SimplifyProofs CondTypes.
Import ListNotations.
Local Open Scope R_scope.

Lemma mmap_map : forall (N : numsys) (S : logsys) (D : distsys N S) A B C (g : A -> B) (f : B -> M (N:=N) (D:=D) C) l, mmap f (map g l) = mmap (fun a => f (g a)) l.
Proof. induction l as [|a l IH]; cbn [map mmap]; [reflexivity|]. rewrite IH. reflexivity. Qed.
Lemma Forall2_map_l : forall A B C (g : A -> B) (P : B -> C -> Prop) l m, Forall2 P (map g l) m <-> Forall2 (fun a c => P (g a) c) l m.
Proof.
  intros A B C g P l. induction l as [|a l IH]; intros m; cbn [map]; split; intros H; inversion H; subst; constructor; auto; now apply IH.
Qed.
Lemma Forall2_imp : forall A B (P Q : A -> B -> Prop) l m, (forall a b, In a l -> In b m -> P a b -> Q a b) -> Forall2 P l m -> Forall2 Q l m.
Proof. intros A B P Q l m I F. induction F as [|a b l m H F IH]; constructor; [apply I; simpl; auto|]. apply IH. intros; apply I; simpl; auto. Qed.

Section Cond.
  Context {N : numsys} {S : logsys} {D : distsys N S} (io : iterorder N) (so : strorder) (po : polyoracle N) (fuel : nat).
  Context (dlaw : dist D -> (fval -> R) -> R) (Ed : eq_dist dlaw) (ident : spe D -> nat) (hash : spe D -> Z).
  Context (nominal : string -> bool) (envof : string -> tenv (N:=N)).
  Notation spe := (spe D).
  Notation tr := (tr N).
  Notation den := (den dlaw).
  Notation wf_spe := (wf_spe dlaw).
  Notation surely := (surely dlaw).
  Notation wf_leaf := (wf_leaf dlaw).
  Notation good_factor := (good_factor (N:=N) nominal).
  Notation good_clause := (good_clause (N:=N) nominal).
  Notation clause := (clause (N:=N)).
  Notation factor := (factor (N:=N)).
  Notation part_ok := (part_ok (D:=D) nominal envof).
  Notation typed := (typed (D:=D) nominal envof).
  Notation condition_mem := (condition_mem io so po fuel ident hash).
  Notation logprob_mem := (logprob_mem io po fuel ident).

  (** t is s given F, and F has positive probability *)
  Definition cond_ok (s : spe) (F : asg -> Prop) (t : spe) : Prop :=
    wf_spe t /\ (forall x, vars t x <-> vars s x) /\ typed t /\ (forall w, 0 < den s (ind F) w) /\ given dlaw s F t.
  Lemma cond_ok_ext : forall s F G t, (forall w, F w <-> G w) -> cond_ok s F t -> cond_ok s G t.
  Proof. intros s F G t E (A & B & C & P & H). unfold cond_ok, given. rewrite <- (ind_iff _ F G E). auto. Qed.
  Lemma cond_ok_true : forall s (F : asg -> Prop), wf_spe s -> typed s -> (forall w, F w) -> cond_ok s F s.
  Proof.
    intros s F W T H. assert (E : ind F = fun _ => 1) by (extensionality a; now apply ind_true). split; auto. split; [tauto|]. split; auto. split.
    - intros w. rewrite E, (law_const (den_kernel dlaw s W w)). lra.
    - intros f Hf w. rewrite E, (law_const (den_kernel dlaw s W w)), Rmult_1_r. f_equal. extensionality a. ring.
  Qed.
  Definition disjoint (f : factor) : Prop := ForallOrdPairs (fun c d => forall w, clause_holds c w -> clause_holds d w -> False) f.

  (** ** Memo tables *)
  Context (U : spe -> Prop) (Uc : closed ident U).
  Definition centry_ok (e : (nat * factor) * spe) : Prop := forall s, U s -> ident s = fst (fst e) -> cond_ok s (factor_holds (snd (fst e))) (snd e).
  Context (C2 : list ((nat * assignment (N:=N)) * (nat * lg S)) -> Prop) (C3 : list ((nat * assignment (N:=N)) * spe) -> Prop).
  Notation valid := (valid dlaw ident U (Forall centry_ok) C2 C3).
  Lemma memo_condition_ok : forall s f x, U s -> sat valid x (cond_ok s (factor_holds f)) -> sat valid (memo_condition ident s f x) (cond_ok s (factor_holds f)).
  Proof.
    intros s f x Us H t Ht. unfold memo_condition. destruct (find_key factor_key_eqb (ident s, f) (m_condition t)) as [r|] eqn:E.
    - split; [exact Ht|]. cbn [fst]. intros a Ea. injection Ea as <-. apply find_key_in in E. destruct E as ((k, g) & Ek & Hin). unfold factor_key_eqb in Ek. cbn [fst snd] in Ek.
      apply andb_true_iff in Ek. destruct Ek as (E1 & E2). apply Nat.eqb_eq in E1. destruct Ht as (_ & Ht & _). rewrite Forall_forall in Ht. specialize (Ht _ Hin s Us (eq_sym E1)). cbn [fst snd] in Ht.
      apply (cond_ok_ext s (factor_holds g)); auto. intros w. now apply factor_eqb_holds.
    - destruct (H t Ht) as (H1 & H2). destruct (x t) as [[r|e] t']; cbn [fst snd] in *.
      + destruct H1 as (V1 & V2 & V3 & V4). split; [|intros a Ea; apply H2; exact Ea]. split; [exact V1|]. split; [|auto]. cbn [m_condition]. constructor; auto.
        intros s' Us' Ei. cbn [fst snd] in *. destruct Uc as (_ & _ & Inj). rewrite (Inj s' s Us' Us Ei). now apply H2.
      + split; auto; discriminate.
  Qed.
  Lemma sat_all : forall A B (m : M A) (H : B -> Prop) (Q : B -> A -> Prop), (exists b, H b) -> (forall b, H b -> sat valid m (Q b)) -> sat valid m (fun a => forall b, H b -> Q b a).
  Proof. intros A B m H Q (b & Hb) K t Ht. split; [apply (K b Hb t Ht)|]. intros a Ea b' Hb'. now apply (K b' Hb' t Ht). Qed.

  (** ** Mixtures *)
  Lemma mixture_total : forall (ts : list spe) (ps ws : list (lg S)) T g w, Forall2 (fun a b => toP b * T = toP a) ps ws ->
    sumR (map (fun p => toP (snd p) * den (fst p) g w) (combine ts ws)) * T = sumR (map (fun p => toP (snd p) * den (fst p) g w) (combine ts ps)).
  Proof.
    intros ts ps ws T g w F. revert ts. induction F as [|p q ps ws E F IH]; intros [|t ts]; cbn [combine map sumR fold_right fst snd]; try (unfold sumR; cbn; ring).
    specialize (IH ts). unfold sumR in IH. rewrite Rmult_plus_distr_r, IH, <- E. ring.
  Qed.
  Lemma null_given : forall s F g w, wf_spe s -> bnd g -> den s (ind F) w = 0 -> den s (fun a => g a * ind F a) w = 0.
  Proof. intros s F g w W B Z. apply (law_null (den_kernel dlaw s W w) F); auto with bnd. intros a Ha. rewrite ind_false by auto. ring. Qed.

  (** ** Sums *)
  Section Sum.
    Context (l : list (spe * lg S)) (Ws : wf_spe (SumSPE l)) (Ts : typed (SumSPE l)) (f : factor).
    Context (Lk : forall c, In c l -> sat valid (logprob_mem (fst c) f) (prob_ok dlaw (fst c) f)).
    Context (Ck : forall c, In c l -> sat valid (condition_mem (fst c) f) (cond_ok (fst c) (factor_holds f))).
    Notation F := (factor_holds f).
    Notation pack c := (logprob_mem (fst c), condition_mem (fst c), snd c).
    Lemma sum_parts : forall (m : list (spe * lg S)) ps ts g w, incl m l -> bnd g -> simple g ->
      Forall2 (fun c q => fst q = pack c /\ prob_ok dlaw (fst c) f (snd q)) m ps ->
      Forall2 (fun q t => forall c, In c l /\ fst q = pack c -> cond_ok (fst c) F t) (positive ps) ts ->
      sumR (map (fun p => toP (snd p) * den (fst p) g w) (combine ts (map (fun q => ladd (snd q) (snd (fst q))) (positive ps)))) =
      sumR (map (fun c => toP (snd c) * den (fst c) (fun a => g a * ind F a) w) m).
    Proof.
      intros m ps ts g w I B Sg Fm. revert ts. induction Fm as [|c q m ps (Eq & Pq) Fm IH]; intros ts Ft.
      - inversion Ft; subst. reflexivity.
      - assert (Hc : In c l) by (apply I; now left). assert (Wc : wf_spe (fst c)) by (eapply sum_wf; eauto). specialize (IH (fun x Hx => I x (or_intror Hx))).
        unfold positive in *. cbn [filter] in *. destruct (lisninf (snd q)) eqn:En; cbn [negb] in *.
        + rewrite (IH ts Ft). cbn [map sumR fold_right]. apply lisninf_ok in En. rewrite null_given; auto; [unfold sumR; ring|]. rewrite <- (Pq w). exact En.
        + inversion Ft as [|? t ? ts' Ht Ft']; subst. destruct (Ht c (conj Hc Eq)) as (_ & _ & _ & _ & Gt). specialize (Gt g Sg w). rewrite <- (Pq w) in Gt.
          cbn [map combine sumR fold_right fst snd]. fold (sumR (map (fun p => toP (snd p) * den (fst p) g w) (combine ts' (map (fun q0 => ladd (snd q0) (snd (fst q0))) (filter (fun x => negb (lisninf (snd x))) ps))))).
          rewrite (IH ts' Ft'), ladd_ok, <- Gt, Eq. cbn [snd]. unfold sumR. ring.
    Qed.
    Lemma sum_weights : forall (m : list (spe * lg S)) ps w, Forall2 (fun c q => fst q = pack c /\ prob_ok dlaw (fst c) f (snd q)) m ps ->
      sumR (map toP (map (fun q => ladd (snd q) (snd (fst q))) (positive ps))) = sumR (map (fun c => toP (snd c) * den (fst c) (ind F) w) m).
    Proof.
      intros m ps w Fm. induction Fm as [|c q m ps (Eq & Pq) Fm IH]; [reflexivity|]. unfold positive in *. cbn [filter map]. destruct (lisninf (snd q)) eqn:En; cbn [negb map sumR fold_right].
      - unfold sumR in IH. rewrite IH. apply lisninf_ok in En. rewrite <- (Pq w), En. ring.
      - unfold sumR in IH. rewrite IH, ladd_ok, <- (Pq w), Eq. cbn [snd]. ring.
    Qed.
    Theorem sum_condition_ok : sat valid (sum_condition (map (fun c => pack c) l) f) (cond_ok (SumSPE l) F).
    Proof.
      unfold sum_condition. rewrite mmap_map.
      apply sat_bind with (P := Forall2 (fun c q => fst q = pack c /\ prob_ok dlaw (fst c) f (snd q)) l).
      { apply sat_mmap. intros c Hc. apply sat_bind with (P := prob_ok dlaw (fst c) f); [cbn [fst snd]; auto|]. intros p Hp. apply sat_ret. auto. }
      intros ps Hps. destruct (positive ps) as [|q0 qs0] eqn:Eq; [apply sat_lift; intros a K; discriminate K|]. rewrite <- Eq.
      assert (Pl : Forall (fun c => 0 < toP (snd c)) l) by exact (every_here _ _ Ts).
      assert (Hq : forall q, In q (positive ps) -> 0 < toP (snd q) /\ exists c, In c l /\ fst q = pack c).
      { intros q Hq. apply filter_In_pos in Hq. destruct Hq as (Hq & Hp). split; auto. destruct (Forall2_in_r _ _ _ _ _ _ Hps Hq) as (c & Hc & E & _). eauto. }
      apply sat_bind with (P := Forall2 (fun q t => forall c, In c l /\ fst q = pack c -> cond_ok (fst c) F t) (positive ps)).
      { apply sat_mmap. intros q H. destruct (Hq q H) as (_ & c & Hc & E). apply sat_all; [eauto|]. intros c' (Hc' & E'). rewrite E'. cbn [fst snd]. auto. }
      intros ts Hts. apply sat_lift. intros t Ht. inv_bind Ht. rename r into ws.
      set (ps' := map (fun q => ladd (snd q) (snd (fst q))) (positive ps)) in *.
      assert (Ne : ps' <> []) by (unfold ps'; rewrite Eq; discriminate).
      assert (Pp : Forall (fun w => 0 < toP w) ps').
      { unfold ps'. rewrite Forall_map. apply Forall_forall. intros q H. destruct (Hq q H) as (Hp & c & Hc & E0). rewrite ladd_ok, E0. cbn [snd]. apply Rmult_lt_0_compat; auto. rewrite Forall_forall in Pl. auto. }
      destruct (lognorm_pos ps' ws Ne Pp E) as (Pw & Tw & Fw).
      assert (Tc : forall d, In d ts -> exists c, In c l /\ cond_ok (fst c) F d).
      { intros d Hd. destruct (Forall2_in_r _ _ _ _ _ _ Hts Hd) as (q & H & K). destruct (Hq q H) as (_ & c & Hc & E0). exists c. split; auto. }
      assert (Len : List.length ts = List.length ws).
      { apply Forall2_len in Hts, Fw. unfold ps' in Fw. rewrite map_length in Fw. congruence. }
      assert (Wt : Forall wf_spe ts) by (apply Forall_forall; intros d Hd; destruct (Tc d Hd) as (c & _ & K); apply K).
      destruct (sum_or_one_ok dlaw ts ws t Wt Len Tw Ht) as (Wf & Vt & Dt).
      assert (Tot : forall w, sumR (map toP ps') = den (SumSPE l) (ind F) w) by (intros w; exact (sum_weights l ps w Hps)).
      split; auto. split; [|split; [|split]].
      - intros x. destruct ts as [|d ts']; [inversion Hts; congruence|]. destruct (Tc d (or_introl eq_refl)) as (c & Hc & _ & Vd & _). rewrite (Vt d x (or_introl eq_refl)), Vd. symmetry. now apply (sum_vars dlaw).
      - apply (sum_or_one_typed nominal envof ts ws); auto. apply Forall_forall. intros d Hd. destruct (Tc d Hd) as (c & _ & K). apply K.
      - intros w. rewrite <- (Tot w). apply sum_pos. destruct Pp; [tauto|now left].
      - intros g Sg w. pose proof (simple_bnd g Sg) as Bg. rewrite Dt, <- (Tot w), (mixture_total ts ps' ws _ g w Fw). cbn [SpeSpec.den]. now apply sum_parts.
    Qed.
  End Sum.

  (** ** Products *)
  Lemma simple_uses : forall (V : string -> Prop) L, (forall p, In p L -> V (fst p)) -> uses V (rect L).
  Proof. intros V L H. apply rect_ignores. intros p Hp K. apply K. auto. Qed.
  Lemma ignores_mult : forall V (f g : asg -> R), ignores V f -> ignores V g -> ignores V (fun a => f a * g a).
  Proof. intros V f g Hf Hg w w' E. now rewrite (Hf w w' E), (Hg w w' E). Qed.
  Lemma ignores_sub : forall A (V W : string -> Prop) (f : asg -> A), (forall x, V x -> W x) -> ignores W f -> ignores V f.
  Proof. intros A V W f I H w w' E. apply H. intros x Hx. apply E. intros K. apply Hx. auto. Qed.
  Lemma prod_given : forall (Fk : spe -> asg -> Prop) l ts, All wf_spe l -> ForallOrdPairs (apart (D:=D)) l -> ForallOrdPairs (apart (D:=D)) ts ->
    (forall k, In k l -> uses (vars k) (ind (Fk k))) -> Forall2 (fun k t => cond_ok k (Fk k) t) l ts -> forall w,
    0 < den_prod den l (ind (fun a => forall k, In k l -> Fk k a)) w /\
    forall L, rect_ok L -> den_prod den ts (rect L) w * den_prod den l (ind (fun a => forall k, In k l -> Fk k a)) w = den_prod den l (fun a => rect L a * ind (fun a => forall k, In k l -> Fk k a) a) w.
  Proof.
    intros Fk l ts Wl Al At Us F. induction F as [|k t l ts Kt F IH]; intros w.
    - cbn [SpeSpec.den_prod]. rewrite ind_true by (intros ? []). split; [lra|]. intros; reflexivity.
    - destruct Wl as (Wk & Wl). inversion Al as [|? ? A1 A2]; subst. inversion At as [|? ? B1 B2]; subst.
      pose proof Kt as (Wt & Vt & Tt & Pt & Gt). assert (Wts : All wf_spe ts).
      { apply all_forall. intros d Hd. destruct (Forall2_in_r _ _ _ _ _ _ F Hd) as (c & _ & K). apply K. }
      destruct (IH Wl A2 B2 (fun c Hc => Us c (or_intror Hc)) w) as (IH1 & IH2). clear IH.
      set (R := fun a => forall c, In c l -> Fk c a) in *.
      assert (Er : ind (fun a => forall c, In c (k :: l) -> Fk c a) = fun a => ind (Fk k) a * ind R a).
      { extensionality a. rewrite <- ind_and. apply ind_eq. unfold R. split; [intros H; split; [apply H; now left|intros; apply H; now right]|intros (H1 & H2) c [<-|Hc]; auto]. }
      rewrite Er. pose proof (apart_pvars k l A1) as Ap.
      assert (I1 : ignores (pvars l) (ind (Fk k))) by (apply (ignores_sub _ _ (fun x => ~ vars k x)); [intros x Hx K; exact (Ap x K Hx)|apply Us; now left]).
      assert (I2 : ignores (vars k) (ind R)).
      { intros u u' E. apply ind_eq. assert (Eq : forall c, In c l -> (Fk c u <-> Fk c u')).
        { intros c Hc. assert (Ei : ind (Fk c) u = ind (Fk c) u').
          { apply (Us c (or_intror Hc)). intros x Hx. apply E. intros K. rewrite Forall_forall in A1. apply Hx. intros Vc. exact (A1 c Hc x K Vc). }
          unfold ind in Ei. destruct (dec (Fk c u)), (dec (Fk c u')); try tauto; lra. }
        unfold R. split; intros H c Hc; apply Eq; auto. }
      split.
      + rewrite (prod_split dlaw k l (ind (Fk k)) (ind R) w); auto with bnd. apply Rmult_lt_0_compat; auto.
      + intros L HL. rewrite (prod_split dlaw k l (ind (Fk k)) (ind R) w) by auto with bnd.
        transitivity (den_prod den (k :: l) (fun a => (rect (inside (vars k) L) a * ind (Fk k) a) * (rect (outside (vars k) L) a * ind R a)) w).
        * rewrite (prod_split dlaw k l (fun a => rect (inside (vars k) L) a * ind (Fk k) a) (fun a => rect (outside (vars k) L) a * ind R a)); auto.
          -- rewrite <- (IH2 (outside (vars k) L)) by auto using rect_ok_outside. rewrite <- (Gt (rect (inside (vars k) L))) by auto using rect_simple, rect_ok_inside.
             transitivity (den t (rect (inside (vars k) L)) w * den_prod den ts (rect (outside (vars k) L)) w * (den k (ind (Fk k)) w * den_prod den l (ind R) w)); [|ring]. f_equal.
             transitivity (den_prod den (t :: ts) (fun a => rect (inside (vars k) L) a * rect (outside (vars k) L) a) w); [f_equal; extensionality a; apply rect_split|].
             apply (prod_split dlaw t ts); auto using rect_bnd, rect_ok_inside, rect_ok_outside.
             ++ apply rect_ignores. intros p Hp K. apply inside_in in Hp. apply (apart_pvars t ts B1 (fst p)); auto. apply Vt. tauto.
             ++ apply rect_ignores. intros p Hp K. apply outside_in in Hp. apply (proj2 Hp). now apply Vt.
          -- apply bnd_mult; auto using rect_bnd, rect_ok_inside with bnd.
          -- apply bnd_mult; auto using rect_bnd, rect_ok_outside with bnd.
          -- apply ignores_mult; auto. apply rect_ignores. intros p Hp K. apply inside_in in Hp. exact (Ap _ (proj2 Hp) K).
          -- apply ignores_mult; auto. apply rect_ignores. intros p Hp. apply outside_in in Hp. tauto.
        * f_equal. extensionality a. rewrite (rect_split (vars k) L a). ring.
  Qed.

  Section Product.
    Context (l : list spe) (Wp : wf_spe (ProductSPE l)) (Tp : typed (ProductSPE l)).
    Context (Lk : forall c, In c l -> forall f, good_factor f -> sat valid (logprob_mem c f) (prob_ok dlaw c f)).
    Context (Ck : forall c, In c l -> forall f, good_factor f -> disjoint f -> sat valid (condition_mem c f) (cond_ok c (factor_holds f))).
    Notation kids := (kids io po fuel ident l).

    Definition restr (c : clause) (k : spe) (w : asg) : Prop := forall x e, In (x, e) c -> vars k x -> holds e w.
    Lemma clause_children : forall c, good_clause c ->
      sat valid (condition_clause so (map (fun c => (c, condition_mem c)) l) c) (Forall2 (fun k t => cond_ok k (restr c k) t) l).
    Proof.
      intros c Gc. unfold condition_clause. rewrite mmap_map. apply sat_mmap. intros k Hk. cbn [fst snd].
      assert (Wk : wf_spe k) by (eapply prod_wf; eauto). assert (Tk : typed k) by (eapply every_prod; eauto). pose proof Gc as (Fc & Nc).
      destruct (filter (fun x => inb String.eqb x (map fst c)) (get_symbols k)) as [|s0 ss] eqn:Ef.
      - apply sat_ret. apply cond_ok_true; auto. intros w x e Hx Vx. exfalso. assert (Hin : In x (filter (fun x => inb String.eqb x (map fst c)) (get_symbols k))).
        { apply filter_In. split; [now apply (get_symbols_vars dlaw)|]. apply inb_string. apply in_map_iff. exists (x, e). auto. }
        rewrite Ef in Hin. destruct Hin.
      - rewrite <- Ef. set (syms := filter (fun x => inb String.eqb x (map fst c)) (get_symbols k)) in *.
        apply sat_bind with (P := Forall2 (fun x p => exists e, p = (x, e) /\ In (x, e) c) (it_str so syms)).
        { apply sat_lift. intros sc Hsc. apply mapM_Forall2 in Hsc. eapply Forall2_imp; [|exact Hsc]. intros x p _ _ Hp. cbv beta in Hp. destruct (lookup x c) as [e|] eqn:El; [|discriminate]. injection Hp as <-.
          exists e. split; auto. now apply lookup_some. }
        intros sc Hsc. assert (Ek : map fst sc = it_str so syms).
        { clear -Hsc. induction Hsc as [|x p xs sc (e & -> & _) F IH]; [reflexivity|]. cbn. now rewrite IH. }
        assert (Ns : NoDup syms) by (apply NoDup_filter, (get_symbols_nodup dlaw); auto).
        assert (In1 : forall p, In p sc -> In p c) by (intros p Hp; destruct (Forall2_in_r _ _ _ _ _ _ Hsc Hp) as (x & _ & e & -> & K); exact K).
        assert (Gs : good_factor [sc]).
        { constructor; [|constructor]. split.
          - rewrite Forall_forall in *. auto.
          - rewrite Ek. eapply Permutation_NoDup; [apply it_str_perm|exact Ns]. }
        eapply sat_weaken; [apply Ck; auto; repeat constructor|]. intros t. apply cond_ok_ext. intros w. unfold factor_holds, restr. split.
        + intros (c' & [<-|[]] & H) x e Hx Vx. assert (Hs : In x (it_str so syms)).
          { eapply Permutation_in; [apply it_str_perm|]. unfold syms. apply filter_In. split; [now apply (get_symbols_vars dlaw)|]. apply inb_string, in_map_iff. exists (x, e). auto. }
          destruct (Forall2_in_l _ _ _ _ _ _ Hsc Hs) as (p & Hp & e' & -> & He'). assert (e' = e).
          { clear -Nc Hx He'. induction c as [|(y, u) c IH]; [destruct Hx|]. cbn in Nc. inversion Nc; subst. destruct Hx as [Hx|Hx], He' as [He|He].
            - congruence.
            - injection Hx as -> ->. destruct H1. apply in_map_iff. exists (x, e'). auto.
            - injection He as -> ->. destruct H1. apply in_map_iff. exists (x, e). auto.
            - auto. }
          subst e'. now apply (H x).
        + intros H. exists sc. split; [now left|]. intros x e Hp. apply (H x); [now apply In1|].
          assert (Hx : In x (map fst sc)) by (apply in_map_iff; exists (x, e); auto). rewrite Ek in Hx. eapply Permutation_in in Hx; [|symmetry; apply it_str_perm].
          unfold syms in Hx. apply filter_In in Hx. now apply (get_symbols_vars dlaw).
    Qed.
    Lemma restr_uses : forall c k, good_clause c -> In k l -> uses (vars k) (ind (restr c k)).
    Proof.
      intros c k (Fc & _) Hk w w' E. apply ind_eq. rewrite Forall_forall in Fc. assert (Q : forall x e, In (x, e) c -> vars k x -> (holds e w <-> holds e w')).
      { intros x e Hx Vx. unfold holds. rewrite (teval_agree e w w'); [tauto|apply (Fc (x, e) Hx)|]. intros y Hy.
        apply (item_symbols nominal (x, e)) in Hy; [|exact (Fc (x, e) Hx)]. cbn in Hy. subst y. apply E. tauto. }
      unfold restr. split; intros H x e Hx Vx; apply (Q x e Hx Vx); eauto.
    Qed.
    (** the keys of the clause are variables of the product *)
    Definition known (c : clause) : Prop := forall x e, In (x, e) c -> pvars l x.
    Lemma known_clause : forall c w, known c -> (clause_holds c w <-> forall k, In k l -> restr c k w).
    Proof.
      intros c w Kn. unfold clause_holds, restr. split.
      - intros H k _ x e Hx _. exact (H x e Hx).
      - intros H x e Hx. destruct (proj1 (pvars_in l x) (Kn x e Hx)) as (k & Hk & Vk). exact (H k Hk x e Hx Vk).
    Qed.
    Lemma clause_product : forall c ts t, good_clause c -> known c -> Forall2 (fun k t => cond_ok k (restr c k) t) l ts -> mk_Product ts = Ok t ->
      cond_ok (ProductSPE l) (clause_holds c) t.
    Proof.
      intros c ts t Gc Kn F H. assert (Wt : Forall wf_spe ts) by (apply Forall_forall; intros d Hd; destruct (Forall2_in_r _ _ _ _ _ _ F Hd) as (k & _ & K); apply K).
      assert (Tt : Forall typed ts) by (apply Forall_forall; intros d Hd; destruct (Forall2_in_r _ _ _ _ _ _ F Hd) as (k & _ & K); apply K).
      destruct (mk_Product_ok dlaw ts t Wt H) as (Wf & _ & Vt & _ & At & Dt). destruct Wp as (Ne & Wl & Al).
      pose proof (prod_given (restr c) l ts Wl Al At (fun k Hk => restr_uses c k Gc Hk) F) as PG.
      assert (Ei : ind (clause_holds c) = ind (fun a => forall k, In k l -> restr c k a)) by (apply ind_iff; intros a; now apply known_clause).
      split; auto. split; [|split; [|split]].
      - intros x. rewrite Vt. change (vars (ProductSPE l) x) with (pvars l x). rewrite pvars_in. split.
        + intros (d & Hd & Vd). destruct (Forall2_in_r _ _ _ _ _ _ F Hd) as (k & Hk & K). exists k. split; auto. now apply K.
        + intros (k & Hk & Vk). destruct (Forall2_in_l _ _ _ _ _ _ F Hk) as (d & Hd & K). exists d. split; auto. now apply K.
      - apply (mk_Product_every part_ok (part_prod nominal envof) ts t); auto.
      - intros w. rewrite Ei. apply PG.
      - apply given_rect; auto. intros L w HL. rewrite Ei, Dt. cbn [SpeSpec.den]. now apply PG.
    Qed.

    Context (f : factor) (Gf : good_factor f) (Df : disjoint f).
    Notation F := (factor_holds f).
    Notation s := (ProductSPE l).
    Lemma ind_factor : forall m a, disjoint m -> ind (factor_holds m) a = sumR (map (fun c => ind (clause_holds c) a) m).
    Proof.
      intros m a Dm. induction Dm as [|c m Hc Dm IH]; cbn [map sumR fold_right].
      - apply ind_false. intros (c & [] & _).
      - fold (sumR (map (fun c => ind (clause_holds c) a) m)). rewrite <- IH. rewrite <- (ind_or_disj _ (clause_holds c) (factor_holds m)).
        + apply ind_eq. unfold factor_holds. split; [intros (d & [<-|Hd] & K); eauto|intros [K|(d & Hd & K)]; [exists c|exists d]; simpl; auto].
        + intros (K1 & d & Hd & K2). rewrite Forall_forall in Hc. exact (Hc d Hd a K1 K2).
    Qed.
    Lemma den_clauses : forall g w, bnd g -> den s (fun a => g a * ind F a) w = sumR (map (fun c => den s (fun a => g a * ind (clause_holds c) a) w) f).
    Proof.
      intros g w Bg. rewrite <- (law_sum (den_kernel dlaw s Wp w) _ f (fun c a => g a * ind (clause_holds c) a)) by auto with bnd.
      f_equal. extensionality a. rewrite (ind_factor f a Df). rewrite Rmult_comm, <- sumR_scale. apply sumR_ext. intros; ring.
    Qed.
    Lemma pos_parts : forall (m : factor) (ps : list (clause * lg S)) g w, bnd g -> Forall2 (fun c q => fst q = c /\ forall w, toP (snd q) = den s (ind (clause_holds c)) w) m ps ->
      sumR (map (fun q => den s (fun a => g a * ind (clause_holds (fst q)) a) w) (positive ps)) = sumR (map (fun c => den s (fun a => g a * ind (clause_holds c) a) w) m).
    Proof.
      intros m ps g w Bg Fm. induction Fm as [|c q m ps (Eq & Pq) Fm IH]; [reflexivity|]. unfold positive in *. cbn [filter map]. destruct (lisninf (snd q)) eqn:En; cbn [negb map sumR fold_right].
      - unfold sumR in IH. rewrite IH. apply lisninf_ok in En. rewrite null_given; auto; [ring|]. rewrite <- (Pq w). exact En.
      - unfold sumR in IH. rewrite IH, Eq. reflexivity.
    Qed.
    Lemma conj_known : forall c, good_clause c -> sat valid (logprob_conjunction io kids [c]) (fun p => (forall w, toP p = den s (ind (clause_holds c)) w) /\ known c).
    Proof.
      intros c Gc t Ht.
      assert (G1 : Forall good_clause [c]) by (constructor; auto).
      destruct (conjunction_ok io po fuel dlaw ident nominal U (Forall centry_ok) C2 C3 l Wp (fun c Hc f => Lk c Hc f) [c] G1 t Ht) as (H1 & H2). split; auto.
      intros p Hp. split.
      - intros w. rewrite (H2 p Hp w). f_equal. apply ind_iff. intros a. unfold all_hold. split; [intros K; apply K; now left|intros K d [<-|[]]; auto].
      - intros x e Hx. unfold logprob_conjunction, mbind at 1, lift in Hp. destruct (mapM (fun p => lookup_child kids (fst p)) (conj_items [c])) as [ks|] eqn:Em; [|discriminate].
        apply mapM_Forall2 in Em. assert (Hi : In (x, e) (conj_items [c])) by (unfold conj_items; cbn; rewrite app_nil_r; exact Hx).
        destruct (Forall2_in_l _ _ _ _ _ _ Em Hi) as (i & _ & El). destruct (lookup_ok io po fuel dlaw ident l _ _ El) as (k & Ek & Vk). apply pvars_in. exists k. split; auto. eapply nth_error_In; eauto.
    Qed.

    Theorem product_condition_ok : sat valid (logprob_mem s f) (prob_ok dlaw s f) ->
      sat valid (product_condition io so hash kids (map (fun c => (c, condition_mem c)) l) (logprob_mem s) f) (cond_ok s F).
    Proof.
      intros Self. unfold product_condition.
      apply sat_bind with (P := Forall2 (fun c q => fst q = c /\ (forall w, toP (snd q) = den s (ind (clause_holds c)) w) /\ known c) f).
      { apply sat_mmap. intros c Hc. assert (Gc : good_clause c) by (unfold MemoProofs.good_factor in Gf; rewrite Forall_forall in Gf; auto). 
        eapply sat_bind; [exact (conj_known c Gc)|]. intros p (Hp & Kn). apply sat_ret. auto. }
      intros ps Hps. apply sat_bind with (P := fun _ => True); [apply sat_lift; auto|]. intros tt _. eapply sat_bind; [exact Self|]. intros p _. apply sat_bind with (P := fun _ => True); [apply sat_lift; auto|]. intros _ _.
      destruct (positive ps) as [|q0 qs0] eqn:Eq; [apply sat_lift; intros a K; discriminate K|]. rewrite <- Eq.
      apply sat_bind with (P := fun ws => lognorm (map snd (positive ps)) = Ok ws); [apply sat_lift; auto|]. intros ws Hw.
      assert (Hq : forall q, In q (positive ps) -> In (fst q) f /\ (forall w, toP (snd q) = den s (ind (clause_holds (fst q))) w) /\ known (fst q)).
      { intros q H. apply filter_In_pos in H. destruct H as (H & _). destruct (Forall2_in_r _ _ _ _ _ _ Hps H) as (c & Hc & <- & K1 & K2). auto. }
      apply sat_bind with (P := Forall2 (fun q ts => Forall2 (fun k t => cond_ok k (restr (fst q) k) t) l ts) (positive ps)).
      { apply sat_mmap. intros q H. apply clause_children. unfold MemoProofs.good_factor in Gf. rewrite Forall_forall in Gf. apply Gf. now apply Hq. }
      intros chs Hchs. apply sat_lift. intros t Ht. inv_bind Ht. rename r into prods. apply mapM_Forall2 in E.
      assert (Ne : map snd (positive ps) <> []) by (rewrite Eq; discriminate).
      destruct (lognorm_pos _ ws Ne (positive_pos _ ps) Hw) as (Pw & Tw & Fw).
      assert (Hp : Forall2 (fun q t => cond_ok s (clause_holds (fst q)) t /\ is_product t = true) (positive ps) prods).
      { assert (Hin : forall q, In q (positive ps) -> good_clause (fst q) /\ known (fst q)).
        { intros q H. destruct (Hq q H) as (Hf & _ & Kn). split; auto. unfold MemoProofs.good_factor in Gf. rewrite Forall_forall in Gf. auto. }
        clear -Wp Tp Lk Ck Hin Hchs E. revert prods E Hin. induction Hchs as [|q ts qs chs K F IH]; intros prods E Hin; inversion E as [|? t ? prods' Et E']; subst; constructor.
        - destruct (Hin q (or_introl eq_refl)) as (Gq & Kq). split; [now apply (clause_product (fst q) ts)|]. unfold mk_Product in Et. inv_bind Et. destruct r; [|discriminate]. injection Et as <-. reflexivity.
        - apply IH; auto. intros q' H. apply Hin. now right. }
      assert (Wt : Forall wf_spe prods) by (apply Forall_forall; intros d Hd; destruct (Forall2_in_r _ _ _ _ _ _ Hp Hd) as (q & _ & K & _); apply K).
      assert (Tt : Forall typed prods) by (apply Forall_forall; intros d Hd; destruct (Forall2_in_r _ _ _ _ _ _ Hp Hd) as (q & _ & K & _); apply K).
      assert (Hps' : Forall2 (fun c q => fst q = c /\ forall w, toP (snd q) = den s (ind (clause_holds c)) w) f ps) by (eapply Forall2_imp; [|exact Hps]; cbv beta; tauto).
      assert (Tot : forall w, sumR (map toP (map snd (positive ps))) = den s (ind F) w).
      { intros w. transitivity (den s (fun a => 1 * ind F a) w); [|f_equal; extensionality a; ring]. rewrite den_clauses by auto with bnd. rewrite <- (pos_parts f ps (fun _ => 1) w (bnd_const _ 1) Hps').
        rewrite map_map. apply sumR_ext. intros q H. destruct (Hq q H) as (_ & Eq' & _). rewrite (Eq' w). f_equal. extensionality a. ring. }
      assert (Mix : forall g w, simple g -> sumR (map (fun p => toP (snd p) * den (fst p) g w) (combine prods (map snd (positive ps)))) = den s (fun a => g a * ind F a) w).
      { intros g w Sg. pose proof (simple_bnd g Sg) as Bg. rewrite den_clauses, <- (pos_parts f ps g w Bg Hps') by auto.
        assert (Hq' : forall q, In q (positive ps) -> forall w, toP (snd q) = den s (ind (clause_holds (fst q))) w) by (intros q H; apply Hq; auto).
        clear -Hp Sg Hq'. induction Hp as [|q t qs prods ((_ & _ & _ & _ & Gt) & _) F0 IH]; [reflexivity|]. cbn [map combine sumR fold_right fst snd]. unfold sumR in IH. rewrite IH by (intros; apply Hq'; now right). f_equal.
        rewrite <- (Gt g Sg w), (Hq' q (or_introl eq_refl) w). ring. }
      assert (Pos : forall w, 0 < den s (ind F) w) by (intros w; rewrite <- (Tot w); apply sum_pos; pose proof (positive_pos _ ps) as Pp; destruct Pp; [tauto|now left]).
      assert (Vp : forall d, In d prods -> forall x, vars d x <-> vars s x) by (intros d Hd; destruct (Forall2_in_r _ _ _ _ _ _ Hp Hd) as (q & _ & K & _); apply K).
      assert (Done : forall d, wf_spe d -> typed d -> (forall x, vars d x <-> vars s x) -> (forall g w, simple g -> den d g w = sumR (map (fun p => toP (snd p) * den (fst p) g w) (combine prods ws))) -> cond_ok s F d).
      { intros d Wd Td Vd Dd. split; auto. split; auto. split; auto. split; auto. intros g Sg w. rewrite Dd, <- (Tot w), (mixture_total prods _ ws _ g w Fw) by auto. now apply Mix. }
      destruct prods as [|d [|d' prods]].
      - inversion Hp. rewrite Eq in *. discriminate.
      - injection Ht as <-. inversion Wt; subst. inversion Tt; subst. apply Done; auto; [apply Vp; now left|]. intros g w _. apply Forall2_len in Hp, Fw. rewrite map_length in Fw. rewrite Hp in Fw. destruct ws as [|w1 [|]]; try discriminate.
        cbn [combine map sumR fold_right fst snd] in *. rewrite Rplus_0_r in *. rewrite Tw. ring.
      - remember (d :: d' :: prods) as prods0 eqn:E0. assert (Ht' : (do s0 <- mk_Sum prods0 ws; simplify hash s0) = Ok t) by (rewrite E0 in *; exact Ht). clear Ht. inv_bind Ht'. rename r into u.
        destruct (mk_Sum_ok dlaw prods0 ws u Wt E1 Tw) as (Len & Wu & (m & ->) & Vu & Du).
        assert (Tu : typed (SumSPE m)) by (apply (mk_Sum_every part_ok True (part_sum nominal envof) prods0 ws); auto).
        pose proof (mk_Sum_terms prods0 ws _ E1) as Em. injection Em as Em.
        assert (Pm : forall c, In c m -> is_product (fst c) = true).
        { intros c Hc. rewrite Em in Hc. apply in_concat in Hc. destruct Hc as (m' & Hm & Hc). apply in_map_iff in Hm. destruct Hm as ((b, wb) & <- & Hb). cbn [fst snd] in Hc. apply in_combine_l in Hb.
          destruct (Forall2_in_r _ _ _ _ _ _ Hp Hb) as (q & _ & _ & Ib). destruct b; try discriminate. cbn [sum_terms] in Hc. destruct Hc as [<-|[]]. reflexivity. }
        assert (Pw' : Forall (fun c => 0 < toP (snd c)) m) by exact (every_here _ _ Tu).
        destruct m as [|(c, wc) m]; [discriminate|]. cbn [simplify simplify_sum] in Ht'. pose proof (Pm _ (or_introl eq_refl)) as Ic. cbn [fst] in Ic. replace (is_leaf c) with false in Ht' by (destruct c; try discriminate; reflexivity). rewrite Ic in Ht'.
        destruct (simplify_product_ok dlaw Ed envof part_ok (part_aenv nominal envof) True (part_sum nominal envof) (part_prod nominal envof) ((c, wc) :: m) t Wu Tu) as (Wf & Tf & Vf & Lf); auto.
        + intros c0 m0 Ec. injection Ec as <- <-. now inversion Pw'.
        + apply Done; auto.
          * intros x. rewrite Vf. rewrite (Vu d x) by (rewrite E0; now left). apply Vp. rewrite E0; now left.
          * intros g w Sg. rewrite <- (Lf g Sg w). apply Du.
    Qed.
  End Product.

  Lemma leaf_factor_cond : forall s f, wf_leaf s -> typed s -> good_factor f -> forall t,
    (do e <- event_factor_to_event io f; leaf_condition io po fuel s e) = Ok t -> cond_ok s (factor_holds f) t.
  Proof.
    intros s f W T G t H. pose proof (typed_atoms nominal envof s T) as A. inv_bind H. destruct (event_factor_ok io nominal f r G E) as (Ge & He & Le). pose proof (lit_in_on_vars _ _ _ Le) as Ov.
    assert (Ws : wf_spe s) by (apply wf_leaf_spe; auto; now apply (wf_leaf_leaf dlaw)).
    assert (Rg : surely s (regular true r)).
    { intros w'. rewrite (law_ext (I:=fun g => den s g w') _ (fun _ => 0)); [apply (law_const (den_kernel dlaw s Ws w'))|]. intros a. apply ind_false. intros K. apply K. now apply on_vars_regular. }
    assert (Na : atomic s -> num_event r).
    { intros At. destruct s as [| x a env| | |]; try contradiction. cbn [atoms_ok] in A. apply (lit_in_num nominal _ _ Le). intros y Hy. apply A.
      unfold leaf_condition in H. inv_bind H. unfold leaf_event in E0. inv_bind E0. inv_bind E0. unfold passert in E2. cbn [leaf_env snd fst] in E2.
      destruct (forallb _ (symbols r)) eqn:Ef; [|discriminate]. rewrite forallb_forall in Ef. now apply inb_string, Ef. }
    destruct (leaf_condition_ok io po fuel dlaw s r t W Ge Rg Na H) as (Wt & Vt & Dt). apply (cond_ok_ext s (holds r)); [exact He|].
    split; auto. split; auto. split; [|split].
    - unfold leaf_condition in H. inv_bind H. inv_bind H. apply (solved_condition_typed io nominal envof s r1); auto. now apply every_here in T.
    - intros w. apply Dt.
    - intros g Sg w. apply Dt. now apply simple_bnd.
  Qed.

  Theorem condition_mem_ok : forall s, U s -> wf_spe s -> typed s -> forall f, good_factor f -> disjoint f -> sat valid (condition_mem s f) (cond_ok s (factor_holds f)).
  Proof.
    assert (Lp : forall s, U s -> wf_spe s -> typed s -> forall f, good_factor f -> sat valid (logprob_mem s f) (prob_ok dlaw s f)).
    { intros s Us W T f G. apply logprob_mem_ok with (nominal := nominal); auto. now apply (typed_atoms nominal envof). }
    induction s using spe_ind'; intros Us W T f G Df; pose proof (Lp _ Us W T f G) as Self; cbn [Spe.condition_mem]; apply memo_condition_ok; auto.
    - apply sat_lift. now apply leaf_factor_cond.
    - apply sat_lift. now apply leaf_factor_cond.
    - apply sat_lift. now apply leaf_factor_cond.
    - apply (sum_condition_ok l W T f); intros c Hc; (assert (Uk : U (fst c)) by (eapply (proj1 Uc); eauto)); (assert (Wk : wf_spe (fst c)) by (eapply sum_wf; eauto)); (assert (Tk : typed (fst c)) by (eapply every_sum; eauto)); auto.
    - assert (Kc : forall c, In c l -> U c /\ wf_spe c /\ typed c).
      { intros c Hc. split; [eapply (proj1 (proj2 Uc)); eauto|]. split; [eapply prod_wf; eauto|eapply every_prod; eauto]. }
      apply (product_condition_ok l W T); auto.
      + intros c Hc g Gg. destruct (Kc c Hc) as (? & ? & ?). auto.
      + intros c Hc g Gg Dg. destruct (Kc c Hc) as (? & ? & ?). auto.
  Qed.
End Cond.
