(** Elementary collapses of simplicial complexes. *)
From Coq Require Import List Arith ZArith Bool Lia ZifyBool ZifyNat Sorted.
From Verif Require Import PidModel LinModel LinSpec MatModel MatSpec MatProofs HomModel HomSpec HomProps SimpModel SimpSpec SimpProofs4 SimpProofs5 SimpProofs7 SimpProps CompProps LinProofs3 IsoSpec IsoProofs IsoProofs2 IsoProofs3 IsoProofs4 IsoProofs5 ConeProofs CollapseSpec CollapseProofs.
Import ListNotations.
Open Scope nat_scope.

(** ** Boundary matrices as functions *)
Definition cnt_ {B} (bm : list (mat Z * list B)) (k : nat) : nat := match nth_error bm k with Some (_, bs) => length bs | None => 0 end.
Definition en {B} (bm : list (mat Z * list B)) (k i j : nat) : Z := match nth_error bm (S k) with Some (D, _) => ent D i j | None => 0%Z end.
Section Bridge.
  Context {B : Type} (bm : list (mat Z * list B)).
  Hypothesis CD : complex_data bm.
  Hypothesis H0 : forall D bs, nth_error bm 0 = Some (D, bs) -> nr D = 1 /\ forall i j, i < nr D -> j < nc D -> ent D i j = 0%Z.
  Set Default Proof Using "All".
  Lemma cd_cols k D bs : nth_error bm k = Some (D, bs) -> nc D = length bs.
  Proof. intros E. destruct CD as (_ & _ & F). rewrite Forall_forall in F. symmetry. exact (F _ (nth_error_In _ _ E)). Qed.
  Lemma cd_fst k D bs : nth_error bm k = Some (D, bs) -> nth_error (map fst bm) k = Some D.
  Proof. intros E. now rewrite nth_error_map, E. Qed.
  Lemma cd_prev k X : nth_error bm (S k) = Some X -> exists D bs, nth_error bm k = Some (D, bs).
  Proof. intros E. destruct (nth_error bm k) as [[D bs]|] eqn:F; [now exists D, bs|]. apply nth_error_None in F. assert (S k < length bm) by (apply nth_error_Some; congruence). lia. Qed.
  Lemma cd_rows k D bs D' bs' : nth_error bm k = Some (D, bs) -> nth_error bm (S k) = Some (D', bs') -> nr D' = length bs.
  Proof. intros E E'. destruct CD as (_ & (_ & F) & _). destruct (F k D D') as [A _]; [now apply cd_fst with bs|rewrite Nat.add_1_r; now apply cd_fst with bs'|]. rewrite <- A. now apply cd_cols with k. Qed.
  Lemma cyc_bridge k D x : nth_error (map fst bm) k = Some D -> (in_kernel D x <-> cycl (en bm) (cnt_ bm) k x).
  Proof.
    intros E. rewrite nth_error_map in E. destruct (nth_error bm k) as [[D' bs]|] eqn:EB; [|discriminate]. cbn in E. injection E as ->. pose proof (cd_cols _ _ _ EB) as C.
    unfold in_kernel, cycl. rewrite C. unfold cnt_ at 1. rewrite EB. destruct k as [|k]; cbn [cyc].
    - split; [intros (A & _); now split|]. intros (A & _). split; [exact A|]. destruct (H0 _ _ EB) as (R & Z0). intros i Hi. unfold apply_at. apply zsum_zero. intros j Hj. now rewrite Z0.
    - destruct (cd_prev _ _ EB) as (D0 & rows & E0). pose proof (cd_rows _ _ _ _ _ E0 EB) as R. rewrite R. unfold cnt_ at 1. rewrite E0.
      assert (S1 : forall i, bd (en bm) (cnt_ bm) k (fun i => nth i x 0%Z) i = apply_at D x i). { intros i. unfold bd, apply_at, en, cnt_. rewrite EB, C. reflexivity. }
      split; intros (A & H); (split; [exact A|]); intros i Hi; [rewrite S1|rewrite <- S1]; now apply H.
  Qed.
  Lemma bnd_bridge k D x : nth_error (map fst bm) k = Some D -> (boundaries_of (map fst bm) k x <-> bndl (en bm) (cnt_ bm) k x).
  Proof.
    intros E. rewrite nth_error_map in E. destruct (nth_error bm k) as [[D' bs]|] eqn:EB; [|discriminate]. cbn in E. injection E as ->. pose proof (cd_cols _ _ _ EB) as C.
    unfold boundaries_of, bndl, bnd. rewrite Nat.add_1_r, !nth_error_map, EB. unfold cnt_ at 1 2. rewrite EB. destruct (nth_error bm (S k)) as [[Y cs]|] eqn:EN; cbn [option_map fst].
    - pose proof (cd_cols _ _ _ EN) as CY. pose proof (cd_rows _ _ _ _ _ EB EN) as R. unfold in_image. rewrite R.
      assert (S1 : forall y i, bd (en bm) (cnt_ bm) k (fun i => nth i y 0%Z) i = apply_at Y y i). { intros y i. unfold bd, apply_at, en, cnt_. rewrite EN, CY. reflexivity. }
      split; intros (A & y & H); (split; [exact A|]).
      + exists (fun j => nth j y 0%Z). intros i Hi. rewrite S1. now apply H.
      + exists (map y (seq 0 (nc Y))). split; [now rewrite map_length, seq_length|]. intros i Hi. rewrite <- S1, H by assumption. apply bd_ext. intros j Hj. symmetry. rewrite fn_map; [reflexivity|]. unfold cnt_ in Hj. rewrite EN in Hj. lia.
    - assert (S1 : forall y i, bd (en bm) (cnt_ bm) k y i = 0%Z) by (intros y i; unfold bd, cnt_; rewrite EN; reflexivity). split.
      + intros (D' & [= <-] & ->). rewrite C. split; [apply repeat_length|]. exists (fun _ => 0%Z). intros i Hi. now rewrite S1, nth_repeat.
      + intros (A & y & H). exists D. split; [reflexivity|]. rewrite C. apply list_ext; [now rewrite repeat_length|]. intros i. rewrite nth_repeat. destruct (Nat.lt_ge_cases i (length bs)) as [Hi|Hi]; [now rewrite H, S1|apply nth_overflow; lia].
  Qed.
  Lemma dd_bridge k i j : i < cnt_ bm k -> j < cnt_ bm (S (S k)) -> sum (cnt_ bm (S k)) (fun l => en bm k i l * en bm (S k) l j)%Z = 0%Z.
  Proof.
    unfold cnt_, en. intros Hi Hj. destruct (nth_error bm (S (S k))) as [[D2 b2]|] eqn:E2; [|lia]. destruct (cd_prev _ _ E2) as (D1 & b1 & E1). destruct (cd_prev _ _ E1) as (D0 & b0 & E0). rewrite E0 in Hi. rewrite E1.
    destruct CD as (_ & (_ & F) & _). destruct (F (S k) D1 D2) as [A P]; [now apply cd_fst with b1|rewrite Nat.add_1_r; now apply cd_fst with b2|]. rewrite <- (cd_cols _ _ _ E1).
    apply P; [rewrite (cd_rows _ _ _ _ _ E0 E1); exact Hi|rewrite (cd_cols _ _ _ E2); exact Hj].
  Qed.
End Bridge.

Definition lab {T} (bm : list (mat Z * list (simplex T))) (k : nat) : list (list T) := match nth_error bm k with Some (_, bs) => map s_labels bs | None => [] end.
Lemma lab_length {T} (bm : list (mat Z * list (simplex T))) k : length (lab bm k) = cnt_ bm k.
Proof. unfold lab, cnt_. destruct (nth_error bm k) as [[D bs]|]; [apply map_length|reflexivity]. Qed.

(** ** Sublists in a given order *)
Lemma sub_filter {A} (f : A -> bool) : forall V, subseq (filter f V) V.
Proof. induction V as [|x V IH]; cbn; [constructor|]. destruct (f x); now constructor. Qed.
Lemma sub_eq {A} (f : A -> bool) : forall c V, subseq c V -> NoDup V -> (forall y, In y V -> (f y = true <-> In y c)) -> c = filter f V.
Proof.
  intros c V S1. induction S1 as [|x a b S1 IH|x a b S1 IH]; intros ND H; [reflexivity| |]; inversion ND as [|? ? Nx ND']; subst; cbn [filter].
  - destruct (f x) eqn:E; [exfalso; apply Nx; apply (subseq_incl _ _ S1); apply H; [now left|exact E]|]. apply IH; [exact ND'|]. intros y Hy. apply H. now right.
  - rewrite (proj2 (H x (or_introl eq_refl)) (or_introl eq_refl)). f_equal. apply IH; [exact ND'|]. intros y Hy. rewrite (H y (or_intror Hy)). split; [intros [->|K]; [contradiction|exact K]|now right].
Qed.
Lemma sub_app_l {A} (c V R : list A) : subseq c V -> subseq c (V ++ R).
Proof. intros S1. induction S1; cbn; [induction R; constructor; assumption|now constructor..]. Qed.
Lemma sub_app_inv {A} : forall (V c R : list A), subseq c (V ++ R) -> (forall y, In y c -> ~ In y R) -> subseq c V.
Proof.
  induction V as [|x V IH]; intros c R S1 H; cbn in S1.
  - destruct c as [|y c]; [constructor|]. exfalso. apply (H y (or_introl eq_refl)). apply (subseq_incl _ _ S1). now left.
  - inversion S1; subst; [apply sub_skip; eapply IH; eassumption|]. apply sub_keep. eapply IH; [eassumption|]. intros y Hy. apply H. now right.
Qed.
Lemma nodup_disj {A} (V R : list A) y : NoDup (V ++ R) -> In y V -> In y R -> False.
Proof. induction V as [|a V IH]; intros ND H K; [destruct H|]. cbn in ND. inversion ND as [|? ? N1 N2]; subst. destruct H as [->|H]; [|now apply IH]. apply N1, in_or_app. now right. Qed.
Lemma skeleton_app {T} (eqb : T -> T -> bool) h h' : exists R, skeleton eqb (h ++ h') = skeleton eqb h ++ R.
Proof.
  unfold skeleton. rewrite concat_app, fold_left_app. generalize (fold_left (fun acc x => if existsb (eqb x) acc then acc else acc ++ [x]) (concat h) []). induction (concat h') as [|x l IH]; intros acc; cbn [fold_left]; [exists []; now rewrite app_nil_r|].
  destruct (existsb (eqb x) acc); [apply IH|]. destruct (IH (acc ++ [x])) as (R & ->). exists (x :: R). now rewrite <- app_assoc.
Qed.

Section Collapse.
  Context {T : Type} (eqb : T -> T -> bool) (x : T) (sigma : list T) (hist : list (list T)).
  Hypothesis He : forall x y, eqb x y = true <-> x = y.
  Hypothesis V1 : valid_hist hist.
  Hypothesis Ns : sigma <> [].
  Hypothesis ND : NoDup (x :: sigma).
  Notation tau := (x :: sigma).
  Notation big := (hist ++ [tau]).
  Hypothesis NF : ~ face_of hist sigma.
  (** the other faces of [tau] *)
  Hypothesis OF : forall c, incl c tau -> ~ incl sigma c -> face_of hist c.
  Set Default Proof Using "All".
  Notation V := (skeleton eqb big).
  Notation V' := (skeleton eqb hist).
  Definition inb (l : list T) (y : T) : bool := existsb (eqb y) l.
  Lemma inb_iff l y : inb l y = true <-> In y l.
  Proof. unfold inb. rewrite existsb_exists. split; [intros (z & H & E); apply He in E; now subst|intros H; exists y; split; [assumption|now apply He]]. Qed.
  Lemma in_dec_ (y : T) l : {In y l} + {~ In y l}.
  Proof. destruct (inb l y) eqn:E; [left; now apply inb_iff|right; intros H; apply inb_iff in H; congruence]. Qed.
  Lemma incl_dec_ (a b : list T) : {incl a b} + {~ incl a b}.
  Proof.
    destruct (forallb (inb b) a) eqn:E; [left|right].
    - intros y Hy. rewrite forallb_forall in E. now apply inb_iff, E.
    - intros H. assert (forallb (inb b) a = true); [|congruence]. apply forallb_forall. intros y Hy. now apply inb_iff, H.
  Qed.
  Definition ss : list T := filter (inb sigma) V.
  Definition ts : list T := filter (inb tau) V.
  Lemma NDV : NoDup V. Proof. now apply skeleton_spec. Qed.
  Lemma in_V y : In y V <-> In y V' \/ In y tau.
  Proof.
    rewrite (proj2 (skeleton_spec eqb big He) y), (proj2 (skeleton_spec eqb hist He) y). split.
    - intros (s & Hs & Hy). apply in_app_iff in Hs. destruct Hs as [Hs|[<-|[]]]; [left; now exists s|now right].
    - intros [(s & Hs & Hy)|Hy]; [exists s; split; [apply in_or_app; now left|exact Hy]|exists tau; split; [apply in_or_app; right; now left|exact Hy]].
  Qed.
  Lemma in_ss y : In y ss <-> In y sigma.
  Proof. unfold ss. rewrite filter_In, inb_iff, in_V. split; [tauto|]. intros H. split; [right; now right|exact H]. Qed.
  Lemma in_ts y : In y ts <-> In y tau.
  Proof. unfold ts. rewrite filter_In, inb_iff, in_V. tauto. Qed.
  Lemma ss_nodup : NoDup ss. Proof. apply NoDup_filter, NDV. Qed.
  Lemma ts_nodup : NoDup ts. Proof. apply NoDup_filter, NDV. Qed.
  Lemma same_len (a b : list T) : NoDup a -> NoDup b -> (forall y, In y a <-> In y b) -> length a = length b.
  Proof. intros A B H. apply Nat.le_antisymm; apply NoDup_incl_length; try assumption; intros y Hy; now apply H. Qed.
  Lemma ss_len : length ss = length sigma. Proof. apply same_len; [apply ss_nodup|now inversion ND|apply in_ss]. Qed.
  Lemma ts_len : length ts = S (length sigma). Proof. change (S (length sigma)) with (length tau). apply same_len; [apply ts_nodup|exact ND|apply in_ts]. Qed.
  Definition p_ : nat := length sigma - 1.
  Lemma p_S : S p_ = length sigma. Proof. unfold p_. destruct sigma; [congruence|cbn; lia]. Qed.
  Lemma big_face c : face_of big c <-> face_of hist c \/ incl c tau.
  Proof.
    unfold face_of. split.
    - intros (s & Hs & I). apply in_app_iff in Hs. destruct Hs as [Hs|[<-|[]]]; [left; now exists s|now right].
    - intros [(s & Hs & I)|I]; [exists s; split; [apply in_or_app; now left|exact I]|exists tau; split; [apply in_or_app; right; now left|exact I]].
  Qed.
  Lemma hist_no c : face_of hist c -> ~ incl sigma c.
  Proof. intros (s & Hs & I) J. apply NF. exists s. split; [exact Hs|]. intros y Hy. apply I, J, Hy. Qed.
  Lemma cells_big k c : is_cell eqb big k c <-> is_cell eqb hist k c \/ (k = p_ /\ c = ss) \/ (k = S p_ /\ c = ts).
  Proof.
    destruct (skeleton_app eqb hist [tau]) as (R & ER). split.
    - intros (S1 & L & F). change (face_of big c) in F. apply big_face in F. destruct (incl_dec_ sigma c) as [I|I].
      + right. destruct F as [F|F]; [now destruct (hist_no c F)|]. destruct (in_dec_ x c) as [Hx|Hx].
        * right. assert (E : c = ts). { apply sub_eq; [exact S1|apply NDV|]. intros y Hy. rewrite inb_iff. split; [intros [<-|K]; [exact Hx|now apply I]|apply F]. } split; [|exact E]. subst c. rewrite ts_len in L. pose proof p_S. lia.
        * left. assert (E : c = ss). { apply sub_eq; [exact S1|apply NDV|]. intros y Hy. rewrite inb_iff. split; [apply I|]. intros K. destruct (F y K) as [<-|K']; [contradiction|exact K']. } split; [|exact E]. subst c. rewrite ss_len in L. pose proof p_S. lia.
      + left. assert (F' : face_of hist c) by (destruct F as [F|F]; [exact F|now apply OF]). split; [|split; [exact L|exact F']]. rewrite ER in S1. apply sub_app_inv in S1; [exact S1|]. intros y Hy K.
        assert (HV' : In y V'). { destruct F' as (s & Hs & J). apply skeleton_spec; [exact He|]. exists s. split; [exact Hs|now apply J]. }
        pose proof NDV as NV. rewrite ER in NV. exact (nodup_disj _ _ _ NV HV' K).
    - intros [(S1 & L & F)|[(-> & ->)|(-> & ->)]].
      + split; [rewrite ER; now apply sub_app_l|]. split; [exact L|]. change (face_of big c). apply big_face. now left.
      + split; [apply sub_filter|]. split; [rewrite ss_len; symmetry; apply p_S|]. change (face_of big ss). apply big_face. right. intros y Hy. right. now apply in_ss.
      + split; [apply sub_filter|]. split; [rewrite ts_len; pose proof p_S; lia|]. change (face_of big ts). apply big_face. right. intros y Hy. now apply in_ts.
  Qed.

  Variables bmK bmL : list (mat Z * list (simplex T)).
  Hypothesis CK : complex_data bmK.
  Hypothesis CL : complex_data bmL.
  Hypothesis ZK : forall D bs, nth_error bmK 0 = Some (D, bs) -> nr D = 1 /\ forall i j, i < nr D -> j < nc D -> ent D i j = 0%Z.
  Hypothesis ZL : forall D bs, nth_error bmL 0 = Some (D, bs) -> nr D = 1 /\ forall i j, i < nr D -> j < nc D -> ent D i j = 0%Z.
  Hypothesis LK : forall k, lists_cells eqb big k (lab bmK k).
  Hypothesis LL : forall k, lists_cells eqb hist k (lab bmL k).
  Hypothesis FK : forall k i j t s, nth_error (lab bmK k) i = Some t -> nth_error (lab bmK (S k)) j = Some s -> face_sign t s (en bmK k i j).
  Hypothesis FL : forall k i j t s, nth_error (lab bmL k) i = Some t -> nth_error (lab bmL (S k)) j = Some s -> face_sign t s (en bmL k i j).
  Notation lpos := (pos (leqb eqb)).
  Definition io_ (k j : nat) : nat := lpos (nth j (lab bmL k) []) (lab bmK k).
  Lemma find_pos k c : is_cell eqb big k c -> nth_error (lab bmK k) (lpos c (lab bmK k)) = Some c.
  Proof.
    intros H. apply LK, In_nth_error in H. destruct H as (i & E). now rewrite (pos_nth (leqb eqb) (leqb_iff eqb He) c (lab bmK k) i (proj1 (LK k)) E).
  Qed.
  Lemma at_L k j : j < cnt_ bmL k -> exists c, nth_error (lab bmL k) j = Some c /\ is_cell eqb hist k c.
  Proof. rewrite <- lab_length. intros H. destruct (nth_error (lab bmL k) j) as [c|] eqn:E; [|apply nth_error_None in E; lia]. exists c. split; [reflexivity|]. apply LL. eapply nth_error_In, E. Qed.
  Lemma at_K k j : j < cnt_ bmK k -> exists c, nth_error (lab bmK k) j = Some c /\ is_cell eqb big k c.
  Proof. rewrite <- lab_length. intros H. destruct (nth_error (lab bmK k) j) as [c|] eqn:E; [|apply nth_error_None in E; lia]. exists c. split; [reflexivity|]. apply LK. eapply nth_error_In, E. Qed.
  Lemma io_spec k j c : nth_error (lab bmL k) j = Some c -> nth_error (lab bmK k) (io_ k j) = Some c.
  Proof. intros E. unfold io_. rewrite (nth_error_nth _ _ _ E). apply find_pos, cells_big. left. apply LL. eapply nth_error_In, E. Qed.
  Lemma K_inj k i j c : nth_error (lab bmK k) i = Some c -> nth_error (lab bmK k) j = Some c -> i = j.
  Proof. intros E F. apply (proj1 (NoDup_nth_error _) (proj1 (LK k))); [apply nth_error_Some; congruence|congruence]. Qed.
  Lemma lt_K k j c : nth_error (lab bmK k) j = Some c -> j < cnt_ bmK k.
  Proof. intros E. rewrite <- lab_length. apply nth_error_Some. congruence. Qed.
  Definition s_ : nat := lpos ss (lab bmK p_).
  Definition t_ : nat := lpos ts (lab bmK (S p_)).
  Lemma s_at : nth_error (lab bmK p_) s_ = Some ss. Proof. apply find_pos, cells_big. right. left. now split. Qed.
  Lemma t_at : nth_error (lab bmK (S p_)) t_ = Some ts. Proof. apply find_pos, cells_big. right. right. now split. Qed.
  Lemma ss_not k : ~ is_cell eqb hist k ss.
  Proof. intros (_ & _ & F). apply (hist_no ss F). intros y Hy. now apply in_ss. Qed.
  Lemma ts_not k : ~ is_cell eqb hist k ts.
  Proof. intros (_ & _ & F). apply (hist_no ts F). intros y Hy. apply in_ts. now right. Qed.
  Lemma ss_face : exists i, i < length ts /\ removed i ts = ss.
  Proof.
    destruct (in_split x ts) as (A & B & E); [apply in_ts; now left|]. exists (length A). split; [rewrite E, app_length; cbn; lia|]. rewrite E, removed_split.
    pose proof ts_nodup as NT. rewrite E in NT. apply NoDup_remove in NT. destruct NT as (NT & Nx).
    assert (S1 : subseq (A ++ B) V). { apply (subseq_app_remove A x B). rewrite <- E. apply sub_filter. }
    apply (sub_eq (inb sigma)); [exact S1|apply NDV|]. intros y Hy. rewrite inb_iff. split.
    - intros K. assert (K' : In y ts) by (apply in_ts; now right). rewrite E in K'. apply in_app_iff in K'. destruct K' as [K'|[<-|K']]; [apply in_or_app; now left| |apply in_or_app; now right]. inversion ND; contradiction.
    - intros K. assert (K' : In y ts) by (rewrite E; apply in_app_iff in K; apply in_or_app; destruct K; [now left|right; now right]). apply in_ts in K'. destruct K' as [<-|K']; [contradiction|exact K'].
  Qed.
  Lemma removed_in {A} (i : nat) (l : list A) : incl (removed i l) l.
  Proof. unfold removed. intros y Hy. apply in_app_iff in Hy. destruct Hy as [Hy|Hy]; [rewrite <- (firstn_skipn i l); apply in_or_app; now left|rewrite <- (firstn_skipn (S i) l); apply in_or_app; now right]. Qed.
  Lemma eps_sq : (en bmK p_ s_ t_ * en bmK p_ s_ t_ = 1)%Z.
  Proof.
    destruct (FK p_ s_ t_ _ _ s_at t_at) as [(i & _ & _ & E)|(N & _)]; [rewrite E; apply alt_sq|]. exfalso. destruct ss_face as (i & Hi & E). exact (N i Hi E).
  Qed.
  Lemma row_s_ j : j < cnt_ bmK (S p_) -> j <> t_ -> en bmK p_ s_ j = 0%Z.
  Proof.
    intros Hj N. destruct (at_K _ _ Hj) as (c & Ec & Cc). destruct (FK p_ s_ j _ _ s_at Ec) as [(i & Hi & E & _)|(_ & E)]; [|exact E]. exfalso.
    assert (I : incl sigma c). { intros y Hy. apply (removed_in i). rewrite E. now apply in_ss. }
    apply cells_big in Cc. destruct Cc as [Cc|[(K & _)|(_ & ->)]]; [destruct Cc as (_ & _ & F); now apply (hist_no c F)|lia|]. apply N. exact (K_inj _ _ _ _ Ec t_at).
  Qed.
  Lemma row_t_ j : j < cnt_ bmK (S (S p_)) -> en bmK (S p_) t_ j = 0%Z.
  Proof.
    intros Hj. destruct (at_K _ _ Hj) as (c & Ec & Cc). destruct (FK (S p_) t_ j _ _ t_at Ec) as [(i & Hi & E & _)|(_ & E)]; [|exact E]. exfalso.
    assert (I : incl sigma c). { intros y Hy. apply (removed_in i). rewrite E. apply in_ts. now right. }
    apply cells_big in Cc. destruct Cc as [Cc|[(K & _)|(K & _)]]; [destruct Cc as (_ & _ & F); now apply (hist_no c F)|lia|lia].
  Qed.
  Lemma io_onto_ k i : i < cnt_ bmK k -> (exists j, j < cnt_ bmL k /\ io_ k j = i) \/ (k = p_ /\ i = s_) \/ (k = S p_ /\ i = t_).
  Proof.
    intros Hi. destruct (at_K _ _ Hi) as (c & Ec & Cc). apply cells_big in Cc. destruct Cc as [Cc|[(-> & ->)|(-> & ->)]].
    - left. apply LL, In_nth_error in Cc. destruct Cc as (j & Ej). exists j. split; [rewrite <- lab_length; apply nth_error_Some; congruence|]. exact (K_inj _ _ _ _ (io_spec _ _ _ Ej) Ec).
    - right. left. split; [reflexivity|]. exact (K_inj _ _ _ _ Ec s_at).
    - right. right. split; [reflexivity|]. exact (K_inj _ _ _ _ Ec t_at).
  Qed.
  Lemma ent_eq_ k i j : i < cnt_ bmL k -> j < cnt_ bmL (S k) -> en bmL k i j = en bmK k (io_ k i) (io_ (S k) j).
  Proof.
    intros Hi Hj. destruct (at_L _ _ Hi) as (c & Ec & Cc). destruct (at_L _ _ Hj) as (e & Ee & Ce).
    apply (fs_fun eqb V c e); [exact He|apply NDV|apply (cells_big (S k)); now left|apply (cells_big k); now left|now apply FL|].
    apply FK; now apply io_spec.
  Qed.
  Lemma abs_quotient k ms : quotient_is (cycl (en bmL) (cnt_ bmL) k) (bndl (en bmL) (cnt_ bmL) k) ms -> quotient_is (cycl (en bmK) (cnt_ bmK) k) (bndl (en bmK) (cnt_ bmK) k) ms.
  Proof.
    apply (collapse_quotient (cnt_ bmK) (cnt_ bmL) (en bmK) (en bmL) io_ p_ s_ t_ (en bmK p_ s_ t_)).
    - intros k' j Hj. destruct (at_L _ _ Hj) as (c & Ec & _). eapply lt_K, io_spec, Ec.
    - intros k' j j' Hj Hj' E. destruct (at_L _ _ Hj) as (c & Ec & _). destruct (at_L _ _ Hj') as (c' & Ec' & _). pose proof (io_spec _ _ _ Ec) as A. pose proof (io_spec _ _ _ Ec') as A'. rewrite E, A' in A. injection A as <-.
      apply (proj1 (NoDup_nth_error _) (proj1 (LL k'))); [apply nth_error_Some; congruence|congruence].
    - exact io_onto_.
    - intros j Hj E. destruct (at_L _ _ Hj) as (c & Ec & Cc). apply io_spec in Ec. rewrite E, s_at in Ec. injection Ec as <-. exact (ss_not _ Cc).
    - intros j Hj E. destruct (at_L _ _ Hj) as (c & Ec & Cc). apply io_spec in Ec. rewrite E, t_at in Ec. injection Ec as <-. exact (ts_not _ Cc).
    - exact (lt_K _ _ _ s_at).
    - exact (lt_K _ _ _ t_at).
    - exact ent_eq_.
    - exact eps_sq.
    - reflexivity.
    - exact row_s_.
    - exact row_t_.
    - apply dd_bridge; assumption.
  Qed.
  Lemma abs_empty k y : cnt_ bmL k = 0 -> cycl (en bmK) (cnt_ bmK) k y -> bndl (en bmK) (cnt_ bmK) k y.
  Proof.
    apply (collapse_empty (cnt_ bmK) (cnt_ bmL) (en bmK) (en bmL) io_ p_ s_ t_ (en bmK p_ s_ t_)).
    - intros k' j Hj. destruct (at_L _ _ Hj) as (c & Ec & _). eapply lt_K, io_spec, Ec.
    - intros k' j j' Hj Hj' E. destruct (at_L _ _ Hj) as (c & Ec & _). destruct (at_L _ _ Hj') as (c' & Ec' & _). pose proof (io_spec _ _ _ Ec) as A. pose proof (io_spec _ _ _ Ec') as A'. rewrite E, A' in A. injection A as <-.
      apply (proj1 (NoDup_nth_error _) (proj1 (LL k'))); [apply nth_error_Some; congruence|congruence].
    - exact io_onto_.
    - intros j Hj E. destruct (at_L _ _ Hj) as (c & Ec & Cc). apply io_spec in Ec. rewrite E, s_at in Ec. injection Ec as <-. exact (ss_not _ Cc).
    - intros j Hj E. destruct (at_L _ _ Hj) as (c & Ec & Cc). apply io_spec in Ec. rewrite E, t_at in Ec. injection Ec as <-. exact (ts_not _ Cc).
    - exact (lt_K _ _ _ s_at).
    - exact (lt_K _ _ _ t_at).
    - exact ent_eq_.
    - exact eps_sq.
    - reflexivity.
    - exact row_s_.
    - exact row_t_.
    - apply dd_bridge; assumption.
  Qed.
End Collapse.
