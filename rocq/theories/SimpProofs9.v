(** [is_connected]. *)
From Coq Require Import List Arith ZArith NArith Bool Lia ZifyBool ZifyNat ZifyN Permutation Sorted.
From Verif Require Import UtilModel UtilSpec UtilProofs PidModel LinModel LinSpec LinProofs MatModel MatProofs SnfModel SimpModel SimpSpec SimpProofs SimpProofs2 SimpProofs3 SimpProofs4.
Import ListNotations.
Open Scope nat_scope.

Section Conn.
  Context {T : Type}.
  Variables (labels : list T) (hist : list (list T)) (K : cplx T).
  Hypothesis HI : Inv labels hist hist K.
  Let n := length labels.
  Let Hn : n <= 64 := I_small _ _ _ _ HI.
  Let M := k_max K.

  (** The running join. *)
  Definition jn (c : cell) (w : N) : Prop := (exists k, c_v c = pad k w) /\ w <> 0%N /\ (w < 2 ^ N.of_nat n)%N /\ c_dim c = Some (length (bits w) - 1).
  Lemma jn_64 c w : jn c w -> (w < 2 ^ 64)%N.
  Proof. intros (_ & _ & H & _). apply (wlt_mono w n 64); [exact H|lia]. Qed.
  Lemma join_step c w m : jn c w -> In m M -> exists c', cell_join c m = Some c' /\ jn c' (N.lor w (wd m)).
  Proof.
    intros Hj Hm. pose proof (jn_64 _ _ Hj) as H64. destruct Hj as ((j & E1) & H0 & Hlt & _). pose proof (max_good labels hist hist K HI m Hm) as Hg. pose proof (good_lt _ _ _ Hg) as Hml. destruct Hg as ((k & E2) & _).
    pose proof (lor_lt w (wd m) n Hlt Hml) as HL. assert (HL64 : (N.lor w (wd m) < 2 ^ 64)%N) by (apply (wlt_mono _ n 64); [exact HL|lia]).
    assert (EV : zipw N.lor (pad j w) (pad k (wd m)) ++ skipn (length (zipw N.lor (pad j w) (pad k (wd m)))) (pad k (wd m)) = pad k (N.lor w (wd m))).
    { unfold pad. cbn [zipw length skipn app]. f_equal. rewrite zipw_zeros. change (N.lor 0 0) with 0%N. rewrite repeat_length. clear. revert k. induction j as [|j IH]; intros [|k]; cbn; auto. now rewrite IH. }
    unfold cell_join. rewrite E1, E2, EV. rewrite cell_dim_one by exact HL64. cbn [obind]. eexists. split; [reflexivity|].
    assert (HNZ : N.lor w (wd m) <> 0%N) by (intros E; apply N.lor_eq_0_l in E; contradiction).
    split; [eexists; reflexivity|]. split; [exact HNZ|]. split; [exact HL|]. cbn [c_dim]. destruct (length (bits (N.lor w (wd m)))) as [|k2] eqn:E.
    - exfalso. apply HNZ. apply bits_nil; [exact HL64|]. now apply length_zero_iff_nil.
    - f_equal. lia.
  Qed.
  Lemma join_fold : forall S c w, jn c w -> incl S M -> exists c', foldM cell_join S c = Some c' /\ jn c' (fold_left N.lor (map wd S) w).
  Proof.
    induction S as [|m S IH]; intros c w Hj HS; cbn [foldM map fold_left]; [eauto|]. destruct (join_step c w m Hj) as (c1 & E1 & H1); [apply HS; now left|]. rewrite E1. cbn [obind].
    apply IH; [exact H1|]. intros x Hx. apply HS. now right.
  Qed.
  Lemma fold_lor_bits : forall S w i, tb (fold_left N.lor (map wd S) w) i = tb w i || existsb (fun m => tb (wd m) i) S.
  Proof. induction S as [|m S IH]; intros w i; cbn [map fold_left existsb]; [now rewrite orb_false_r|]. rewrite IH, tb_lor. now rewrite orb_assoc. Qed.

  Definition touching (w : N) : list cell := filter (fun m => negb (N.land (wd m) w =? 0)%N) M.
  Definition grow (w : N) : N := fold_left N.lor (map wd (touching w)) w.
  Lemma touching_spec c w : jn c w -> filter (fun m => cell_meets m c) M = touching w.
  Proof.
    intros ((j & E) & _). apply filter_ext_in. intros m Hm. destruct (max_good labels hist hist K HI m Hm) as ((k & Em) & _). unfold cell_meets. rewrite E, Em. unfold pad. cbn [zipw existsb].
    rewrite zipw_zeros. change (negb (N.land 0 0 =? 0)%N) with false. rewrite existsb_falses. now rewrite orb_false_r.
  Qed.
  Lemma touch_bits w m : In m M -> (negb (N.land (wd m) w =? 0)%N = true <-> exists i, tb (wd m) i = true /\ tb w i = true).
  Proof. intros Hm. rewrite negb_true_iff, N.eqb_neq. apply land_nonzero. eapply good_lt64. now apply (max_good labels hist hist K HI). Qed.
  Lemma grow_sub w : wsub w (grow w).
  Proof. intros i Hi. unfold grow. rewrite fold_lor_bits, Hi. reflexivity. Qed.
  Lemma grow_closed w m : grow w = w -> In m M -> (exists i, tb (wd m) i = true /\ tb w i = true) -> wsub (wd m) w.
  Proof.
    intros Hg Hm Ht i Hi. rewrite <- Hg. unfold grow. rewrite fold_lor_bits. apply orb_true_iff. right. apply existsb_exists. exists m. split; [|exact Hi].
    apply filter_In. split; [exact Hm|]. now apply (touch_bits w m Hm).
  Qed.

  Definition lab i x := nth_error labels i = Some x.
  (** Every vertex of the join is joined to the base vertex. *)
  Definition reach (x0 : T) (w : N) : Prop := forall i x, tb w i = true -> lab i x -> joined hist x0 x.
  Lemma reach_grow x0 w : (w < 2 ^ N.of_nat n)%N -> reach x0 w -> reach x0 (grow w).
  Proof.
    intros Hw HR i x Hi Hx. unfold grow in Hi. rewrite fold_lor_bits in Hi. apply orb_true_iff in Hi. destruct Hi as [Hi|Hi]; [now apply (HR i)|].
    apply existsb_exists in Hi. destruct Hi as (m & Hm & Hb). apply filter_In in Hm. destruct Hm as [Hm Ht]. apply (touch_bits w m Hm) in Ht. destruct Ht as (j & Hj1 & Hj2).
    assert (HW : In (wd m) (words K)) by (rewrite words_map; now apply in_map). destruct (I_src _ _ _ _ HI _ HW) as (s & Hs & HS). destruct (HS i Hb) as (y & Hy & Hys). destruct (HS j Hj1) as (z & Hz & Hzs).
    unfold lab in Hx. rewrite Hx in Hy. injection Hy as <-. eapply j_step; [exact (HR j z Hj2 Hz)|exact Hs|exact Hzs|exact Hys].
  Qed.
  (** A join that has stopped growing is a whole component. *)
  Lemma closed_component x0 i0 w : grow w = w -> lab i0 x0 -> tb w i0 = true -> forall x, joined hist x0 x -> In x labels -> exists i, lab i x /\ tb w i = true.
  Proof.
    intros Hg H0 Hb x Hj. induction Hj as [x|x y z s Hxy IH Hs Hy Hz]; intros Hin; [eauto|].
    destruct (I_cov _ _ _ _ HI s Hs) as (v & Hv & HC). rewrite words_map in Hv. apply in_map_iff in Hv. destruct Hv as (m & <- & Hm).
    destruct (HC y Hy) as (iy & Ey & By). destruct (HC z Hz) as (iz & Ez & Bz). destruct (IH H0) as (i & Ei & Bi); [eapply nth_error_In; exact Ey|].
    assert (i = iy) by (eapply nth_inj; [apply (I_nodup _ _ _ _ HI)|exact Ei|exact Ey]). subst i. exists iz. split; [exact Ez|]. apply (grow_closed w m Hg Hm); [eauto|exact Bz].
  Qed.
  Definition conn : Prop := forall x y, In x labels -> In y labels -> joined hist x y.
  Lemma joined_trans x y z : joined hist x y -> joined hist y z -> joined hist x z.
  Proof. intros H1 H2. induction H2 as [|y z u s H IH Hs Hz Hu]; [exact H1|]. eapply j_step; [now apply IH|exact Hs|exact Hz|exact Hu]. Qed.
  Lemma joined_sym x y : joined hist x y -> joined hist y x.
  Proof.
    induction 1 as [x|x y z s H IH Hs Hy Hz]; [constructor|]. eapply joined_trans; [|exact IH]. eapply j_step; [apply j_refl|exact Hs|exact Hz|exact Hy].
  Qed.

  Lemma full_word w : (w < 2 ^ N.of_nat n)%N -> length (bits w) = n -> forall i, i < n -> tb w i = true.
  Proof.
    intros Hw HL i Hi. rewrite (bits_split w n Hw) in HL by lia. destruct (tb w i) eqn:E; [reflexivity|]. exfalso.
    assert (length (filter (tb w) (seq 0 n)) < n); [|lia]. rewrite <- (seq_length n 0) at 2. clear HL. assert (Hin : In i (seq 0 n)) by (apply in_seq; lia). revert Hin. generalize (seq 0 n). intros l. induction l as [|a l IH]; intros Hin; [destruct Hin|].
    assert (Hle : length (filter (tb w) l) <= length l) by (clear; induction l as [|b l IH]; cbn; [lia|]; destruct (tb w b); cbn; lia).
    cbn [filter length]. destruct Hin as [->|Hin]; [rewrite E; lia|]. specialize (IH Hin). destruct (tb w a); cbn [length]; lia.
  Qed.

  Lemma dim_eqb_some a b : dim_eqb (Some a) (Some b) = (a =? b).
  Proof. unfold dim_eqb, dim_cmp. destruct (Nat.compare_spec a b); symmetry; [now apply Nat.eqb_eq|apply Nat.eqb_neq; lia|apply Nat.eqb_neq; lia]. Qed.
  Lemma loop_conn x0 i0 : lab i0 x0 -> forall fuel c w, jn c w -> reach x0 w -> tb w i0 = true -> n < fuel + length (bits w) ->
    exists b, connected_loop fuel K c (Some (length (bits w) - 1)) = Some b /\ (b = true <-> conn).
  Proof.
    intros H0. induction fuel as [|f IH]; intros c w Hj HR Hb Hf.
    { exfalso. pose proof Hj as (_ & _ & Hlt & _). rewrite (bits_split w n Hlt) in Hf by lia. assert (H : forall l, length (filter (tb w) l) <= length l) by (clear; induction l as [|b l IH]; cbn; [lia|]; destruct (tb w b); cbn; lia). specialize (H (seq 0 n)). rewrite seq_length in H. lia. }
    cbn [connected_loop]. fold M. rewrite (touching_spec c w Hj). destruct (join_fold (touching w) c w Hj) as (c' & Ec & Hj'); [intros x Hx; apply filter_In in Hx; apply Hx|]. rewrite Ec. cbn [obind]. fold (grow w) in Hj'.
    assert (Hpos : i0 < n) by (apply nth_error_Some; unfold lab in H0; congruence). assert (HS : k_size K = S (n - 1)) by (rewrite (I_size _ _ _ _ HI); fold n; clear - Hpos; lia). rewrite HS. cbv iota beta.
    remember (n - 1) as m eqn:Hm. assert (Ed : c_dim c' = Some (length (bits (grow w)) - 1)) by apply Hj'. rewrite Ed, !dim_eqb_some.
    assert (Hlw : (w < 2 ^ N.of_nat n)%N) by apply Hj. assert (Hlg : (grow w < 2 ^ N.of_nat n)%N) by apply Hj'.
    pose proof (reach_grow x0 w Hlw HR) as HR'.
    assert (HPw : 0 < length (bits w)) by (destruct (bits w) eqn:E; [exfalso; destruct Hj as (_ & Hz & _); apply Hz, bits_nil; [apply (wlt_mono w n 64); [exact Hlw|clear - Hn; lia]|exact E]|cbn; lia]).
    assert (H64w : (w < 2 ^ 64)%N) by (apply (wlt_mono w n 64); [exact Hlw|lia]). assert (H64g : (grow w < 2 ^ 64)%N) by (apply (wlt_mono (grow w) n 64); [exact Hlg|lia]).
    pose proof (wsub_len w (grow w) H64w H64g (grow_sub w)) as Hle. destruct (Nat.eqb_spec (length (bits (grow w)) - 1) m) as [E|NE].
    - exists true. split; [reflexivity|]. split; [intros _|reflexivity]. assert (EL : length (bits (grow w)) = n) by lia. pose proof (full_word (grow w) Hlg EL) as HF.
      assert (Hall : forall x, In x labels -> joined hist x0 x). { intros x Hx. destruct (In_nth_error _ _ Hx) as (i & Hi). apply (HR' i x); [|exact Hi]. apply HF. apply nth_error_Some. unfold n. congruence. }
      intros x y Hx Hy. eapply joined_trans; [apply joined_sym; now apply Hall|now apply Hall].
    - destruct (Nat.eqb_spec (length (bits (grow w)) - 1) (length (bits w) - 1)) as [E2|NE2].
      + exists false. split; [reflexivity|]. split; [discriminate|]. intros HC. exfalso. assert (Hgw : grow w = w) by (symmetry; apply wsub_eq_len; [assumption|assumption|apply grow_sub|lia]).
        apply NE. rewrite Hgw. assert (HB : bits w = seq 0 n).
        { rewrite (bits_split w n Hlw) by lia. apply filter_all. intros i Hi. apply in_seq in Hi. destruct (nth_error labels i) as [x|] eqn:Ex; [|apply nth_error_None in Ex; fold n in Ex; lia].
          destruct (closed_component x0 i0 w Hgw H0 Hb x) as (j & Hj1 & Hj2); [apply HC; eapply nth_error_In; eassumption|eapply nth_error_In; exact Ex|]. now rewrite (nth_inj labels (I_nodup _ _ _ _ HI) i j x Ex Hj1). }
        rewrite HB, seq_length. lia.
      + apply IH; [exact Hj'|exact HR'|now apply grow_sub|lia].
  Qed.

  Theorem is_connected_spec : exists b, cplx_is_connected K = Some b /\ (b = true <-> conn).
  Proof.
    unfold cplx_is_connected. assert (E0 : exists l, k_max K = l) by eauto. destruct E0 as (l & E). rewrite E. destruct l as [|c0 t].
    - exists true. split; [reflexivity|]. split; [intros _|reflexivity]. intros x y Hx _. destruct (In_nth_error _ _ Hx) as (i & Hi). destruct (I_all _ _ _ _ HI i) as (w & Hw & _); [apply nth_error_Some; congruence|].
      rewrite words_map, E in Hw. destruct Hw.
    - assert (Hc : In c0 (k_max K)) by (rewrite E; now left). pose proof (max_good labels hist hist K HI c0 Hc) as Hg. pose proof (good_lt64 _ _ _ Hg) as H64. pose proof (good_lt _ _ _ Hg) as Hlt. pose proof (good_pos _ _ _ Hg) as Hpos.
      assert (Hj : jn c0 (wd c0)) by (destruct Hg as (A & B & _ & _ & _ & D); split; [exact A|]; split; [exact B|]; split; [exact Hlt|exact D]).
      destruct (bits (wd c0)) as [|i0 bs] eqn:EB; [cbn in Hpos; lia|]. assert (Hb0 : tb (wd c0) i0 = true) by (apply (proj1 (in_bits _ i0 H64)); rewrite EB; now left).
      pose proof (tb_true_lt _ _ _ Hlt Hb0) as Hi0. destruct (nth_error labels i0) as [x0|] eqn:Ex; [|apply nth_error_None in Ex; lia].
      assert (Ed : c_dim c0 = Some (length (bits (wd c0)) - 1)) by apply Hj. rewrite Ed. apply (loop_conn x0 i0 Ex); [exact Hj| |exact Hb0|].
      + intros i x Hi Hx. assert (HW : In (wd c0) (words K)) by (rewrite words_map; now apply in_map). destruct (I_src _ _ _ _ HI _ HW) as (s & Hs & HS). destruct (HS i Hi) as (y & Hy & Hys). destruct (HS i0 Hb0) as (z & Hz & Hzs).
        unfold lab in Hx. rewrite Hx in Hy. injection Hy as <-. rewrite Ex in Hz. injection Hz as <-. eapply j_step; [apply j_refl|exact Hs|exact Hzs|exact Hys].
      + rewrite (I_size _ _ _ _ HI). fold n. lia.
  Qed.
End Conn.
