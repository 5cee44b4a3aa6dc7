(** The boundary of a boundary: a chain-level argument. *)
From Coq Require Import List Arith ZArith NArith Bool Lia ZifyBool ZifyNat ZifyN Permutation Sorted.
From Verif Require Import PidModel MatModel MatSpec GraphModel GraphSpec CubeModel CubeSpec CubeProofs.
Import ListNotations.
Open Scope nat_scope.

Definition sgn (b : bool) : Z := if b then 1%Z else (-1)%Z.
Definition zsum {A} (f : A -> Z) (l : list A) : Z := fold_right (fun x a => (f x + a)%Z) 0%Z l.
Lemma zsum_cons {A} (f : A -> Z) a l : zsum f (a :: l) = (f a + zsum f l)%Z.
Proof. reflexivity. Qed.
Lemma zsum_app {A} (f : A -> Z) l l' : zsum f (l ++ l') = (zsum f l + zsum f l')%Z.
Proof. induction l as [|a l IH]; cbn [app]; [change (zsum f []) with 0%Z; lia|]. rewrite !zsum_cons, IH. lia. Qed.
Lemma zsum_ext {A} (f g : A -> Z) l : (forall x, In x l -> f x = g x) -> zsum f l = zsum g l.
Proof. induction l as [|a l IH]; intros H; [reflexivity|]. rewrite !zsum_cons, H by now left. rewrite IH; [reflexivity|]. intros; apply H; now right. Qed.

(** The evaluation of a cochain on the signed faces. *)
Definition ev (phi : list factor -> Z) (l : list (bool * list factor)) : Z := zsum (fun sf => (sgn (fst sf) * phi (f_sort (snd sf)))%Z) l.
Definition Bd (phi : list factor -> Z) (c : list factor) : Z := ev phi (faces true [] c).

(** The same with edges and vertices kept apart. *)
Notation fn := (list (nat * nat) -> list nat -> Z).
Fixpoint Bp (f : fn) (E : list (nat * nat)) (V : list nat) : Z :=
  match E with
  | [] => 0%Z
  | e :: E => (f E (fst e :: V) - f E (snd e :: V) - Bp (fun E' V' => f (e :: E') V') E V)%Z
  end.
Lemma Bp_lin (f g h : fn) E : forall V, Bp (fun E V => f E V - g E V - h E V)%Z E V = (Bp f E V - Bp g E V - Bp h E V)%Z.
Proof.
  revert f g h. induction E as [|e E IH]; intros f g h V; cbn [Bp]; [lia|].
  rewrite (IH (fun E' V' => f (e :: E') V') (fun E' V' => g (e :: E') V') (fun E' V' => h (e :: E') V')). lia.
Qed.

Definition cells (E : list (nat * nat)) (V : list nat) : list factor := map (fun e => FEdge (fst e) (snd e)) E ++ map FVertex V.
Lemma cells_mid P e E V : Permutation (cells (P ++ e :: E) V) (FEdge (fst e) (snd e) :: cells (P ++ E) V).
Proof. unfold cells. rewrite !map_app. cbn [map]. rewrite <- !app_assoc. symmetry. apply Permutation_middle. Qed.
Lemma cells_vert E x V : Permutation (cells E (x :: V)) (FVertex x :: cells E V).
Proof. unfold cells. cbn [map]. symmetry. apply Permutation_middle. Qed.
Lemma pd_face P e E V x : x = fst e \/ x = snd e -> pd (cells (P ++ e :: E) V) -> pd (cells (P ++ E) (x :: V)).
Proof.
  intros Hx H. apply (pd_perm _ _ (cells_mid P e E V)) in H. apply pd_cons in H. destruct H as [H1 H2].
  apply (pd_perm (FVertex x :: cells (P ++ E) V)); [symmetry; apply cells_vert|]. apply pd_cons. split; [|exact H2].
  eapply Forall_impl; [|exact H1]. intros f D v [<-|[]]. apply D. cbn. destruct Hx as [-> | ->]; auto.
Qed.

Lemma Bp_ext (f g : fn) E : forall P V, (forall E' V', pd (cells (P ++ E') V') -> f E' V' = g E' V') -> pd (cells (P ++ E) V) -> Bp f E V = Bp g E V.
Proof.
  revert f g. induction E as [|e E IH]; intros f g P V H HV; cbn [Bp]; [reflexivity|].
  rewrite !H by (eapply pd_face; eauto). f_equal. apply (IH _ _ (P ++ [e])); [|rewrite <- app_assoc; exact HV].
  intros E' V' HE. apply H. rewrite <- app_assoc in HE. exact HE.
Qed.
Definition swap_inv (P : list (nat * nat)) (f : fn) : Prop := forall E V a b, pd (cells (P ++ E) (a :: b :: V)) -> f E (a :: b :: V) = f E (b :: a :: V).
Lemma swap_inv_snoc P e f : swap_inv P f -> swap_inv (P ++ [e]) (fun E V => f (e :: E) V).
Proof. intros H E V a b HV. apply H. rewrite <- app_assoc in HV. exact HV. Qed.
Lemma Bp_vert (f : fn) E : forall P x V, swap_inv P f -> pd (cells (P ++ E) (x :: V)) -> Bp (fun E V => f E (x :: V)) E V = Bp f E (x :: V).
Proof.
  revert f. induction E as [|e E IH]; intros f P x V H HV; cbn [Bp]; [reflexivity|].
  rewrite (H E V x (fst e)), (H E V x (snd e)).
  - f_equal. apply (IH (fun E' V' => f (e :: E') V') (P ++ [e])); [now apply swap_inv_snoc|rewrite <- app_assoc; exact HV].
  - assert (K : pd (cells (P ++ E) (snd e :: x :: V))) by (eapply pd_face; [right; reflexivity|exact HV]).
    revert K. apply pd_perm. unfold cells. apply Permutation_app_head. cbn. apply perm_swap.
  - assert (K : pd (cells (P ++ E) (fst e :: x :: V))) by (eapply pd_face; [left; reflexivity|exact HV]).
    revert K. apply pd_perm. unfold cells. apply Permutation_app_head. cbn. apply perm_swap.
Qed.
Lemma Bp_Bp (f : fn) E : forall P V, swap_inv P f -> pd (cells (P ++ E) V) -> Bp (Bp f) E V = 0%Z.
Proof.
  revert f. induction E as [|e E IH]; intros f P V H HV; [reflexivity|].
  change (Bp (Bp f) (e :: E) V) with (Bp f E (fst e :: V) - Bp f E (snd e :: V) - Bp (fun E' V' => f E' (fst e :: V') - f E' (snd e :: V') - Bp (fun E2 V2 => f (e :: E2) V2) E' V')%Z E V)%Z.
  rewrite (Bp_lin (fun E' V' => f E' (fst e :: V')) (fun E' V' => f E' (snd e :: V')) (Bp (fun E2 V2 => f (e :: E2) V2))).
  rewrite !(Bp_vert f E P) by (auto || (eapply pd_face; eauto)).
  rewrite (IH _ (P ++ [e])); [lia|now apply swap_inv_snoc|rewrite <- app_assoc; exact HV].
Qed.

(** Splitting a cell into its edges and vertices. *)
Fixpoint edges_of (l : list factor) : list (nat * nat) := match l with [] => [] | FEdge x y :: t => (x, y) :: edges_of t | FVertex _ :: t => edges_of t end.
Fixpoint verts_of (l : list factor) : list nat := match l with [] => [] | FEdge _ _ :: t => verts_of t | FVertex x :: t => x :: verts_of t end.
Lemma edges_app l l' : edges_of (l ++ l') = edges_of l ++ edges_of l'.
Proof. induction l as [|[x y|x] l IH]; cbn; [reflexivity|now rewrite IH|exact IH]. Qed.
Lemma verts_app l l' : verts_of (l ++ l') = verts_of l ++ verts_of l'.
Proof. induction l as [|[x y|x] l IH]; cbn; [reflexivity|exact IH|now rewrite IH]. Qed.
Lemma split_perm l : Permutation l (cells (edges_of l) (verts_of l)).
Proof.
  induction l as [|[x y|x] l IH]; cbn [edges_of verts_of]; [reflexivity| |].
  - unfold cells in *. cbn [map app fst snd]. now rewrite <- IH.
  - rewrite cells_vert. now rewrite <- IH.
Qed.
Definition mkc (E : list (nat * nat)) (V : list nat) : list factor := f_sort (cells E V).
Lemma swap_mkc phi P : swap_inv P (fun E V => phi (mkc (P ++ E) V)).
Proof. intros E V a b H. unfold mkc. f_equal. apply f_sort_eq; [exact H|]. unfold cells. apply Permutation_app_head. cbn. apply perm_swap. Qed.
Lemma mkc_perm E V V' : pd (cells E V) -> Permutation V V' -> mkc E V = mkc E V'.
Proof. intros H P. apply f_sort_eq; [exact H|]. unfold cells. apply Permutation_app_head. now apply Permutation_map. Qed.

Lemma faces_Bp phi l : forall s pre, pd (pre ++ l) ->
  ev phi (faces s pre l) = (sgn s * Bp (fun E V => phi (mkc (edges_of pre ++ E) V)) (edges_of l) (verts_of (pre ++ l)))%Z.
Proof.
  induction l as [|[x y|x] l IH]; intros s pre H; cbn [faces edges_of Bp]; [cbn; lia| |].
  - unfold ev. rewrite !zsum_cons. fold (ev phi (faces (negb s) (pre ++ [FEdge x y]) l)). rewrite IH by (rewrite <- app_assoc; exact H). cbn [fst snd].
    assert (VE : verts_of ((pre ++ [FEdge x y]) ++ l) = verts_of (pre ++ FEdge x y :: l)) by (rewrite <- app_assoc; reflexivity). rewrite VE.
    assert (EE : Bp (fun E V => phi (mkc (edges_of (pre ++ [FEdge x y]) ++ E) V)) (edges_of l) (verts_of (pre ++ FEdge x y :: l)) = Bp (fun E V => phi (mkc (edges_of pre ++ (x, y) :: E) V)) (edges_of l) (verts_of (pre ++ FEdge x y :: l))).
    { apply (Bp_ext _ _ _ (edges_of (pre ++ [FEdge x y]))); [intros E' V' _; rewrite edges_app; cbn [edges_of]; now rewrite <- app_assoc|]. rewrite <- edges_app, <- VE. apply (pd_perm _ _ (split_perm _)). rewrite <- app_assoc. exact H. }
    rewrite EE.
    assert (FE : forall z, z = x \/ z = y -> f_sort (pre ++ FVertex z :: l) = mkc (edges_of pre ++ edges_of l) (z :: verts_of (pre ++ FEdge x y :: l))).
    { intros z Hz. unfold mkc. apply f_sort_eq.
      - apply (pd_perm (FVertex z :: pre ++ l)); [apply Permutation_middle|]. apply (pd_perm _ (FEdge x y :: pre ++ l)) in H; [|symmetry; apply Permutation_middle]. apply pd_cons in H. apply pd_cons. split; [|apply H].
        eapply Forall_impl; [|apply H]. intros f D v [<-|[]]. apply D. cbn. destruct Hz as [-> | ->]; auto.
      - rewrite cells_vert. rewrite <- Permutation_middle. apply perm_skip. rewrite <- edges_app. rewrite verts_app. cbn [verts_of]. rewrite <- verts_app. apply split_perm. }
    rewrite !FE by auto. destruct s; cbn [sgn negb]; lia.
  - rewrite IH by (rewrite <- app_assoc; exact H). f_equal. rewrite <- app_assoc. cbn [app]. apply (Bp_ext _ _ _ (edges_of pre)); [intros E' V' _; rewrite edges_app; cbn [edges_of]; now rewrite app_nil_r|].
    change (edges_of l) with (edges_of (FVertex x :: l)). rewrite <- edges_app. apply (pd_perm _ _ (split_perm _)). exact H.
Qed.
Lemma Bd_Bp phi c : pd c -> Bd phi c = Bp (fun E V => phi (mkc E V)) (edges_of c) (verts_of c).
Proof. intros H. unfold Bd. rewrite (faces_Bp phi c true [] H). cbn [sgn edges_of app]. lia. Qed.

(** Sorting keeps the edges of a listed cell in order. *)
Lemma edges_insert z l : edges_of (f_insert (FVertex z) l) = edges_of l.
Proof. induction l as [|a l IH]; [reflexivity|]. cbn [f_insert]. destruct (f_lt a (FVertex z)); [|reflexivity]. destruct a; cbn [edges_of]; now rewrite IH. Qed.
Lemma edges_listed l E : listed l -> StronglySorted (fun a b => fst a < fst b) E -> Permutation (edges_of l) E -> edges_of l = E.
Proof.
  intros Hl HE P.
  assert (HS : StronglySorted (fun a b => fst a < fst b) (edges_of l)).
  { clear -Hl. unfold listed in Hl. induction Hl as [|f l H IH F]; cbn; [constructor|]. destruct f as [x y|x]; [|exact IH]. constructor; [exact IH|]. cbn [low] in F. clear -F.
    induction l as [|[a b|a] l IH]; cbn; [constructor| |]; inversion F; subst; [constructor; auto|auto]. }
  revert E HE P HS. generalize (edges_of l). clear. intros l. induction l as [|a l IH]; intros E HE P HS; [apply Permutation_nil in P; congruence|].
  destruct E as [|b E]; [symmetry in P; now apply Permutation_nil_cons in P|]. inversion HS as [|? ? S1 S2]; subst. inversion HE as [|? ? S1' S2']; subst. rewrite Forall_forall in S2, S2'.
  assert (K : a = b).
  { assert (Ha : In a (b :: E)) by (rewrite <- P; now left). assert (Hb : In b (a :: l)) by (rewrite P; now left). destruct Ha as [Ha|Ha], Hb as [Hb|Hb]; try congruence. specialize (S2 _ Hb). specialize (S2' _ Ha). lia. }
  subst b. f_equal. apply IH; auto. eapply Permutation_cons_inv. exact P.
Qed.
Lemma edges_perm l l' : Permutation l l' -> Permutation (edges_of l) (edges_of l').
Proof. induction 1 as [|x l l' P IH|x y l|l1 l2 l3 P1 IH1 P2 IH2]; cbn; [constructor|destruct x; [now constructor|exact IH]|destruct x, y; try reflexivity; apply perm_swap|now rewrite IH1]. Qed.
Lemma verts_perm l l' : Permutation l l' -> Permutation (verts_of l) (verts_of l').
Proof. induction 1 as [|x l l' P IH|x y l|l1 l2 l3 P1 IH1 P2 IH2]; cbn; [constructor|destruct x; [exact IH|now constructor]|destruct x, y; try reflexivity; apply perm_swap|now rewrite IH1]. Qed.
Lemma edges_cells E V : edges_of (cells E V) = E.
Proof. unfold cells. rewrite edges_app. induction E as [|[x y] E IH]; cbn; [induction V; cbn; auto|]. now rewrite IH. Qed.
Lemma verts_cells E V : verts_of (cells E V) = V.
Proof. unfold cells. rewrite verts_app. induction E as [|[x y] E IH]; cbn; [induction V; cbn; congruence|]. exact IH. Qed.

Notation esorted := (StronglySorted (fun a b : nat * nat => fst a < fst b)).
Lemma Bp_ext2 (f g : fn) E : forall P V, (forall E' V', pd (cells (P ++ E') V') -> esorted (P ++ E') -> f E' V' = g E' V') -> pd (cells (P ++ E) V) -> esorted (P ++ E) -> Bp f E V = Bp g E V.
Proof.
  revert f g. induction E as [|e E IH]; intros f g P V H HV HE; cbn [Bp]; [reflexivity|].
  assert (HE' : esorted (P ++ E)). { clear -HE. induction P as [|a P IH]; cbn in *; inversion HE; subst; [assumption|]. constructor; [now apply IH|]. rewrite Forall_app in *. destruct H2 as [A B]. inversion B; subst. auto. }
  rewrite !H by (auto || (eapply pd_face; eauto)). f_equal. apply (IH _ _ (P ++ [e])); [|rewrite <- app_assoc; exact HV|rewrite <- app_assoc; exact HE].
  intros E' V' HE1 HE2. rewrite <- app_assoc in HE1, HE2. apply H; assumption.
Qed.
Lemma Bp_perm (f : fn) E : forall P V V', (forall E' W W', pd (cells (P ++ E') W) -> Permutation W W' -> f E' W = f E' W') -> pd (cells (P ++ E) V) -> Permutation V V' -> Bp f E V = Bp f E V'.
Proof.
  revert f. induction E as [|e E IH]; intros f P V V' H HV PV; cbn [Bp]; [reflexivity|].
  rewrite (H E (fst e :: V) (fst e :: V')), (H E (snd e :: V) (snd e :: V')); [|eapply pd_face; eauto|now constructor|eapply pd_face; eauto|now constructor].
  f_equal. apply (IH _ (P ++ [e])); [|rewrite <- app_assoc; exact HV|exact PV]. intros E' W W' HW PW. apply H; [rewrite <- app_assoc in HW; exact HW|exact PW].
Qed.
Lemma listed_esorted l : listed l -> esorted (edges_of l).
Proof.
  intros Hl. unfold listed in Hl. induction Hl as [|f l H IH F]; cbn; [constructor|]. destruct f as [x y|x]; [|exact IH]. constructor; [exact IH|]. cbn [low] in F. clear -F.
  induction l as [|[a b|a] l IH]; cbn; [constructor| |]; inversion F; subst; [constructor; auto|auto].
Qed.
Theorem Bd_Bd phi c : pd c -> listed c -> Bd (Bd phi) c = 0%Z.
Proof.
  intros H HL. rewrite Bd_Bp by exact H. pose proof (pd_perm _ _ (split_perm c) H) as HC. pose proof (listed_esorted c HL) as HE.
  rewrite (Bp_ext2 _ (Bp (fun E V => phi (mkc E V))) _ [] _) ; [| |exact HC|exact HE].
  - apply (Bp_Bp _ _ []); [apply (swap_mkc phi [])|exact HC].
  - cbn [app]. intros E V HD HS. assert (PM : Permutation (mkc E V) (cells E V)) by apply f_sort_perm. rewrite Bd_Bp by (unfold mkc; now apply f_sort_pd).
    assert (EE : edges_of (mkc E V) = E). { apply edges_listed; [unfold mkc; now apply f_sort_listed|exact HS|]. rewrite (edges_perm _ _ PM). now rewrite edges_cells. }
    rewrite EE. apply (Bp_perm _ _ []); cbn [app].
    + intros E' W W' HW PW. f_equal. now apply mkc_perm.
    + revert HD. apply pd_perm. unfold cells. apply Permutation_app_head, Permutation_map. rewrite (verts_perm _ _ PM), verts_cells. reflexivity.
    + rewrite (verts_perm _ _ PM). now rewrite verts_cells.
Qed.
