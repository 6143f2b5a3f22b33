(** Structural equality of expressions over the distributions of Instances.v.  With it the
    assumption that the objects inside every expression have distinct identities can be met. *)
From Coq Require Import List Bool String Reals ZArith QArith.
From Verif Require Import Base Num Sets SetBuilt Poly Trans TransFacts Dnf Logs Spe SpeSpec SpeFacts Instances PropSpe SpeEx.
Import ListNotations.
Local Open Scope bool_scope.

Record eqok {A} (f : A -> A -> bool) : Prop := { eq_sound : forall a b, f a b = true -> a = b; eq_refl' : forall a, f a a = true }.
Arguments eq_sound {A f} _ a b.
Arguments eq_refl' {A f} _ a.
Ltac split_and := repeat match goal with H : _ && _ = true |- _ => apply andb_true_iff in H; destruct H end.

Definition qsame (a b : Q) : bool := Z.eqb (Qnum a) (Qnum b) && Pos.eqb (Qden a) (Qden b).
Lemma qsame_ok : eqok qsame.
Proof.
  split; [intros [a1 a2] [b1 b2] H|intros [a1 a2]]; unfold qsame in *; cbn in *.
  - apply andb_true_iff in H. destruct H as (H1 & H2). apply Z.eqb_eq in H1. apply Pos.eqb_eq in H2. congruence.
  - now rewrite Z.eqb_refl, Pos.eqb_refl.
Qed.
Lemma str_ok : eqok String.eqb.
Proof. split; [apply String.eqb_eq|apply String.eqb_refl]. Qed.
Lemma bool_ok : eqok Bool.eqb.
Proof. split; [apply eqb_prop|apply eqb_reflx]. Qed.
Lemma zsame_ok : eqok Z.eqb.
Proof. split; [apply Z.eqb_eq|apply Z.eqb_refl]. Qed.
Section Lists.
  Context {A : Type} (f : A -> A -> bool).
  Fixpoint list_same (l m : list A) : bool :=
    match l, m with [], [] => true | a :: l, b :: m => f a b && list_same l m | _, _ => false end.
End Lists.
Lemma list_ok : forall A (f : A -> A -> bool), eqok f -> eqok (list_same f).
Proof.
  intros A f K. split.
  - induction a as [|x a IH]; intros [|y b] H; cbn in H; try discriminate; auto. split_and. f_equal; [now apply (eq_sound K)|auto].
  - induction a as [|x a IH]; cbn; auto. now rewrite (eq_refl' K).
Qed.
Definition pair_same {A B} (f : A -> A -> bool) (g : B -> B -> bool) (a b : A * B) : bool := f (fst a) (fst b) && g (snd a) (snd b).
Lemma pair_ok : forall A B (f : A -> A -> bool) (g : B -> B -> bool), eqok f -> eqok g -> eqok (pair_same f g).
Proof.
  intros A B f g F G. split; [intros (a1, a2) (b1, b2) H|intros (a1, a2)]; unfold pair_same in *; cbn in *.
  - split_and. f_equal; [now apply (eq_sound F)|now apply (eq_sound G)].
  - now rewrite (eq_refl' F), (eq_refl' G).
Qed.
Definition ext_same (a b : ext Q) : bool := match a, b with NInf, NInf | PInf, PInf => true | Fin a, Fin b => qsame a b | _, _ => false end.
Lemma ext_ok : eqok ext_same.
Proof. split; [intros [|a|] [|b|] H|intros [|a|]]; cbn in *; try discriminate; auto; [f_equal; now apply (eq_sound qsame_ok)|apply (eq_refl' qsame_ok)]. Qed.
Definition iv_same (a b : interval QS) : bool :=
  ext_same (iv_a a) (iv_a b) && ext_same (iv_b a) (iv_b b) && Bool.eqb (iv_lo a) (iv_lo b) && Bool.eqb (iv_ro a) (iv_ro b).
Lemma iv_same_ok : eqok iv_same.
Proof.
  split; [intros [a1 a2 a3 a4] [b1 b2 b3 b4] H|intros [a1 a2 a3 a4]]; unfold iv_same in *; cbn in *.
  - split_and. f_equal; try (now apply (eq_sound ext_ok)); now apply (eq_sound bool_ok).
  - now rewrite !(eq_refl' ext_ok), !(eq_refl' bool_ok).
Qed.
Definition flag_same (a b : pyflag) : bool := match a, b with None, None => true | Some a, Some b => Bool.eqb a b | _, _ => false end.
Lemma flag_ok : eqok flag_same.
Proof. split; [intros [[]|] [[]|] H|intros [[]|]]; cbn in *; congruence. Qed.
Definition bset_same (a b : bset QS) : bool :=
  match a, b with
  | BNom v f, BNom w g => list_same String.eqb v w && flag_same f g
  | BReal v, BReal w => list_same ext_same v w
  | BInt i, BInt j => iv_same i j
  | _, _ => false
  end.
Lemma bset_ok : eqok bset_same.
Proof.
  split; [intros [v f|v|i] [w g|w|j] H|intros [v f|v|i]]; cbn in *; try discriminate.
  - split_and. f_equal; [now apply (eq_sound (list_ok _ _ str_ok))|now apply (eq_sound flag_ok)].
  - f_equal. now apply (eq_sound (list_ok _ _ ext_ok)).
  - f_equal. now apply (eq_sound iv_same_ok).
  - now rewrite (eq_refl' (list_ok _ _ str_ok)), (eq_refl' flag_ok).
  - apply (eq_refl' (list_ok _ _ ext_ok)).
  - apply (eq_refl' iv_same_ok).
Qed.
Definition pset_same (a b : pset QS) : bool :=
  match a, b with
  | PEmpty, PEmpty => true
  | PB a, PB b => bset_same a b
  | PUnion l, PUnion m => list_same bset_same l m
  | _, _ => false
  end.
Lemma pset_ok : eqok pset_same.
Proof.
  split; [intros [|a|l] [|b|m] H|intros [|a|l]]; cbn in *; try discriminate; auto; [f_equal; now apply (eq_sound bset_ok)|f_equal; now apply (eq_sound (list_ok _ _ bset_ok))|apply (eq_refl' bset_ok)|apply (eq_refl' (list_ok _ _ bset_ok))].
Qed.
Definition kind_same (a b : ekind) : bool := match a, b with KInt, KInt | KReal, KReal | KNom, KNom => true | _, _ => false end.
Fixpoint tsame (s t : tr QS) : bool :=
  match s, t with
  | TId x, TId y => String.eqb x y
  | TRadical s d, TRadical t e => tsame s t && Pos.eqb d e
  | TExp s b, TExp t c => tsame s t && qsame b c
  | TLog s b, TLog t c => tsame s t && qsame b c
  | TAbs s, TAbs t => tsame s t
  | TRecip s, TRecip t => tsame s t
  | TPoly s cs, TPoly t ds => tsame s t && list_same qsame cs ds
  | TPiece l, TPiece m => list_same (pair_same tsame tsame) l m
  | EBasic k s v, EBasic j t w => kind_same k j && pset_same v w && tsame s t
  | EOr l, EOr m | EAnd l, EAnd m => list_same tsame l m
  | _, _ => false
  end.
Lemma kind_ok : eqok kind_same.
Proof. split; [intros [] [] H|intros []]; cbn in *; try discriminate; auto. Qed.
Lemma list_sound : forall A (f : A -> A -> bool) l, (forall a, In a l -> forall b, f a b = true -> a = b) -> forall m, list_same f l m = true -> l = m.
Proof. induction l as [|a l IH]; intros K [|b m] H; cbn in H; try discriminate; auto. split_and. f_equal; [apply K; auto; now left|apply IH; auto; intros; apply K; auto; now right]. Qed.
Lemma list_refl : forall A (f : A -> A -> bool) l, (forall a, In a l -> f a a = true) -> list_same f l l = true.
Proof. induction l as [|a l IH]; intros K; cbn; auto. rewrite K by now left. apply IH. intros; apply K; now right. Qed.
Lemma tsame_ok : eqok tsame.
Proof.
  split.
  - induction a using tr_ind'; intros [] K; cbn [tsame] in K; try discriminate; split_and; f_equal; auto;
      try (now apply (eq_sound str_ok)); try (now apply (eq_sound qsame_ok)); try (now apply Pos.eqb_eq); try (now apply (eq_sound (list_ok _ _ qsame_ok))); try (now apply (eq_sound kind_ok)); try (now apply (eq_sound pset_ok)).
    + refine (list_sound _ _ _ _ _ K). intros (x, y) Hp (x', y') E. unfold pair_same in E. cbn in E. split_and. rewrite Forall_forall in H. destruct (H _ Hp) as (A1 & A2). f_equal; auto.
    + refine (list_sound _ _ _ _ _ K). rewrite Forall_forall in H. auto.
    + refine (list_sound _ _ _ _ _ K). rewrite Forall_forall in H. auto.
  - induction a using tr_ind'; cbn [tsame]; rewrite ?IHa, ?(eq_refl' str_ok), ?(eq_refl' qsame_ok), ?Pos.eqb_refl, ?(eq_refl' (list_ok _ _ qsame_ok)), ?(eq_refl' kind_ok), ?(eq_refl' pset_ok); auto.
    + apply list_refl. intros p Hp. rewrite Forall_forall in H. destruct (H _ Hp) as (A1 & A2). unfold pair_same. now rewrite A1, A2.
    + apply list_refl. rewrite Forall_forall in H. auto.
    + apply list_refl. rewrite Forall_forall in H. auto.
Qed.
Definition dist_same (a b : edist) : bool := match a, b with DFin l, DFin m => list_same (pair_same Z.eqb qsame) l m | DUnif, DUnif => true | _, _ => false end.
Lemma dist_same_ok : eqok dist_same.
Proof.
  split; [intros [l|] [m|] H|intros [l|]]; cbn in *; try discriminate; auto; [f_equal; now apply (eq_sound (list_ok _ _ (pair_ok _ _ _ _ zsame_ok qsame_ok)))|apply (eq_refl' (list_ok _ _ (pair_ok _ _ _ _ zsame_ok qsame_ok)))].
Qed.
Definition env_same : tenv (N:=QS) -> tenv (N:=QS) -> bool := list_same (pair_same String.eqb tsame).
Lemma env_same_ok : eqok env_same.
Proof. exact (list_ok _ _ (pair_ok _ _ _ _ str_ok tsame_ok)). Qed.
Fixpoint same (a b : spQ) : bool :=
  match a, b with
  | RealLeaf c x d i e v, RealLeaf c' x' d' i' e' v' => Bool.eqb c c' && String.eqb x x' && dist_same d d' && iv_same i i' && Bool.eqb e e' && env_same v v'
  | AtomicLeaf x c v, AtomicLeaf x' c' v' => String.eqb x x' && qsame c c' && env_same v v'
  | NominalLeaf x l, NominalLeaf x' l' => String.eqb x x' && list_same (pair_same String.eqb qsame) l l'
  | SumSPE l, SumSPE l' => list_same (fun p q => same (fst p) (fst q) && qsame (snd p) (snd q)) l l'
  | ProductSPE l, ProductSPE l' => list_same same l l'
  | _, _ => false
  end.
Lemma same_ok : eqok same.
Proof.
  split.
  - induction a using spe_ind'; intros [] K; cbn [same] in K; try discriminate; split_and; f_equal;
      try (now apply (eq_sound str_ok)); try (now apply (eq_sound qsame_ok)); try (now apply (eq_sound bool_ok)); try (now apply (eq_sound dist_same_ok)); try (now apply (eq_sound iv_same_ok)); try (now apply (eq_sound env_same_ok));
      try (now apply (eq_sound (list_ok _ _ (pair_ok _ _ _ _ str_ok qsame_ok)))).
    + refine (list_sound _ _ _ _ _ K). intros (s, q) Hp (s', q') E. cbn in E. split_and. f_equal; [apply (H (s, q)); auto|now apply (eq_sound qsame_ok)].
    + refine (list_sound _ _ _ _ _ K). auto.
  - induction a using spe_ind'; cbn [same]; rewrite ?(eq_refl' bool_ok), ?(eq_refl' str_ok), ?(eq_refl' dist_same_ok), ?(eq_refl' iv_same_ok), ?(eq_refl' qsame_ok), ?(eq_refl' env_same_ok); auto.
    + now rewrite (eq_refl' (list_ok _ _ (pair_ok _ _ _ _ str_ok qsame_ok))).
    + apply list_refl. intros p Hp. apply andb_true_iff. split; [exact (H p Hp)|exact (eq_refl' qsame_ok (snd p))].
    + apply list_refl. auto.
Qed.

(** the identity of a part of s: where it first occurs in s *)
Fixpoint place_of (c : spQ) (l : list spQ) : nat := match l with [] => 0 | d :: l => if same d c then 0 else Datatypes.S (place_of c l) end.
Definition ids_of (s c : spQ) : nat := place_of c (parts s).
Lemma place_of_in : forall l a b, In a l -> In b l -> place_of a l = place_of b l -> a = b.
Proof.
  induction l as [|d l IH]; intros a b Ha Hb E; [destruct Ha|]. cbn in E. destruct (same d a) eqn:Ea, (same d b) eqn:Eb; try discriminate.
  - apply (eq_sound same_ok) in Ea, Eb. congruence.
  - injection E as E. destruct Ha as [->|Ha]; [rewrite (eq_refl' same_ok) in Ea; discriminate|]. destruct Hb as [->|Hb]; [rewrite (eq_refl' same_ok) in Eb; discriminate|]. auto.
Qed.
Lemma ids_distinct : forall s, distinct (ids_of s) s.
Proof. intros s a b Ha Hb E. apply within_in in Ha, Hb. now apply (place_of_in (parts s)). Qed.
