(* Zero flags and the chunk cache are invisible: an operation applied to two arrays with the same irreps, leading shape and
   array gives the same irreps, leading shape and array, whatever their zero flags and cached chunks. *)
From Coq Require Import Reals Lra.
From Verif Require Import PyBase PermModel PermProofs IrrepsModel IrrepsProofs IrrepsProofs2 ArrayModel ArrayProofs ArrayOps RechunkProofs SliceProofs SliceProofs2 ArithProofs LeadModel LeadProofs BlockProofs AxisProofs StackProofs BilinProofs ActProofs HistoryProofs.
Open Scope nat_scope.

(* same irreps, same leading shape, same array: nothing is said about flags and chunks *)
Definition same (x y : iarray) : Prop := irr x = irr y /\ lead x = lead y /\ forall i, valid (lead x) i -> arr x i = arr y i.
Definition succeeds_like (z : iarray) (r : res iarray) : Prop := exists y, r = Ok y /\ same z y.

Lemma same_refl x : same x x.
Proof. repeat split. Qed.
Lemma same_sym x y : same x y -> same y x.
Proof. intros (A & B & C). split; [auto|]. split; [auto|]. intros i Hi. symmetry. apply C. rewrite B. exact Hi. Qed.
Lemma same_trans x y z : same x y -> same y z -> same x z.
Proof. intros (A & B & C) (A' & B' & C'). split; [congruence|]. split; [congruence|]. intros i Hi. rewrite C by exact Hi. apply C'. rewrite <- B. exact Hi. Qed.
Lemma yields_like r x s a r' a' z : r = Ok z -> yields r x s a -> yields r' x s a' -> (forall i, valid s i -> a i = a' i) -> succeeds_like z r'.
Proof.
  intros E (y & Ey & A & B & _ & C) (y' & Ey' & A' & B' & _ & C') H. assert (y = z) by congruence. subst y. exists y'. split; [exact Ey'|]. split; [congruence|]. split; [congruence|].
  intros i Hi. rewrite B in Hi. rewrite C, C' by exact Hi. apply H, Hi.
Qed.
Lemma returns_like r x s a r' a' z : r = Ok z -> returns r x s a -> returns r' x s a' -> (forall i, valid s i -> a i = a' i) -> succeeds_like z r'.
Proof.
  intros E (y & Ey & A & B & C) (y' & Ey' & A' & B' & C') H. assert (y = z) by congruence. subst y. exists y'. split; [exact Ey'|]. split; [congruence|]. split; [congruence|].
  intros i Hi. rewrite B in Hi. rewrite C, C' by exact Hi. apply H, Hi.
Qed.
(* two lists of chunks with the same denotation *)
Fixpoint same_chunks (s : shape) (x : irreps) (cs cs' : list (option chunk)) : Prop :=
  match x, cs, cs' with
  | [], [], [] => True
  | m :: x, c :: cs, c' :: cs' => wf_opt s m c /\ wf_opt s m c' /\ (forall i, valid s i -> den m c i = den m c' i) /\ same_chunks s x cs cs'
  | _, _, _ => False
  end.
Lemma same_chunks_wf s : forall x cs cs', same_chunks s x cs cs' -> Forall2 (wf_opt s) x cs /\ Forall2 (wf_opt s) x cs'.
Proof. induction x as [|m x IH]; intros [|c cs] [|c' cs'] H; try contradiction; [split; constructor|]. destruct H as (A & B & _ & H). destruct (IH _ _ H). split; constructor; assumption. Qed.
Lemma same_chunks_row s : forall x cs cs', same_chunks s x cs cs' -> forall i, valid s i -> chunks_row x cs i = chunks_row x cs' i.
Proof.
  induction x as [|m x IH]; intros [|c cs] [|c' cs'] H i Hi; try contradiction; [reflexivity|]. destruct H as (A & B & C & H). unfold chunks_row in *. cbn [combine flat_map]. rewrite C by exact Hi. f_equal. apply IH; assumption.
Qed.
Lemma from_chunks_like x cs cs' s z : same_chunks s x cs cs' -> from_chunks x cs s true = Ok z -> succeeds_like z (from_chunks x cs' s true).
Proof.
  intros H E. destruct (same_chunks_wf _ _ _ _ H) as [W W']. destruct (from_chunks_ok x cs s true W (or_introl eq_refl)) as (y & Ey & A & B & _ & C & _). destruct (from_chunks_ok x cs' s true W' (or_introl eq_refl)) as (y' & Ey' & A' & B' & _ & C' & _).
  assert (y = z) by congruence. subst y. exists y'. split; [exact Ey'|]. split; [congruence|]. split; [congruence|]. intros i Hi. rewrite B in Hi. rewrite C, C' by exact Hi. apply same_chunks_row with (s := s); assumption.
Qed.
Lemma chunks_same x y : coherent x -> coherent y -> same x y -> same_chunks (lead x) (irr x) (chunks x) (chunks y).
Proof.
  intros Hx Hy (A & B & C). pose proof (chunks_wf x Hx) as W. pose proof (chunks_wf y Hy) as W'. rewrite <- A, <- B in W'.
  assert (Q : forall i, valid (lead x) i -> map (fun '(m, c) => den m c i) (combine (irr x) (chunks x)) = map (fun '(m, c) => den m c i) (combine (irr x) (chunks y))).
  { intros i Hi. rewrite <- (chunks_blocks x Hx i Hi), A, <- (chunks_blocks y Hy i) by (rewrite <- B; exact Hi). rewrite C by exact Hi. reflexivity. }
  clear A B C Hx Hy. revert W W' Q. generalize (chunks x) (chunks y). intros l l' W. revert l'. induction W as [|m c xs l Hc W IH]; intros l' W' Q; inversion W' as [|? c' ? l2 Hc' W2]; subst; cbn; [exact I|].
  split; [exact Hc|]. split; [exact Hc'|]. split; [intros i Hi; specialize (Q i Hi); cbn in Q; congruence|]. apply IH; [exact W2|]. intros i Hi. specialize (Q i Hi). cbn in Q. congruence.
Qed.

(* ---------- one operation ---------- *)
Section Like.
Variables x x' : iarray.
Hypothesis Hx : coherent x.
Hypothesis Hx' : coherent x'.
Hypothesis S : same x x'.
Let Si : irr x = irr x' := proj1 S.
Let Sl : lead x = lead x' := proj1 (proj2 S).
Let Sa : forall i, valid (lead x) i -> arr x i = arr x' i := proj2 (proj2 S).

Ltac via Y := eapply yields_like; [eassumption|apply Y; auto|rewrite Si, Sl; apply Y; auto|cbv beta].

Lemma force_like z : Ok (force_chunks x) = Ok z -> succeeds_like z (Ok (force_chunks x')).
Proof. intros [= <-]. eexists. split; [reflexivity|]. exact S. Qed.
Lemma pytree_like z : pytree_roundtrip x = Ok z -> succeeds_like z (pytree_roundtrip x').
Proof. intros E. via pytree_yields. intros i Hi. apply Sa. exact Hi. Qed.
Lemma neg_like z : neg x = Ok z -> succeeds_like z (neg x').
Proof. intros E. via neg_yields. intros i Hi. rewrite Sa by exact Hi. reflexivity. Qed.
Lemma bare_like f s w b z : (forall i, valid s i -> length (b i) = w) -> binop_bare f x s w b = Ok z -> succeeds_like z (binop_bare f x' s w b).
Proof.
  intros L E. pose proof E as E0. unfold binop_bare in E. destruct (all_even_scalars (irr x)) eqn:Ea; [|discriminate].
  destruct (broadcast_shapes (lead x) s) as [s'|] eqn:Es; [|discriminate]. cbn [bind] in E. destruct (bdim (dim (irr x)) w) as [w'|] eqn:Ew; [|discriminate]. cbn [bind] in E.
  assert (Ew' : w' = dim (irr x)). { unfold mkIA in E. destruct (Nat.eqb_spec w' (dim (irr x))); [assumption|discriminate]. }
  pose proof (bdim_dim _ _ _ Ew Ew') as Hw.
  eapply yields_like; [exact E0|apply (binop_bare_yields f x s w b s' Hx Ea Es Hw L)| |].
  - rewrite Si in *. rewrite Sl in *. apply (binop_bare_yields f x' s w b s' Hx' Ea Es Hw L).
  - intros i Hi. cbv beta. destruct (broadcast_valid _ _ _ _ Es Hi) as [V _]. rewrite Sa by exact V. rewrite Si, Sl. reflexivity.
Qed.
Lemma scale_like f s b z : (forall v, f 0%R v = 0%R) -> scale_by f x s b = Ok z -> succeeds_like z (scale_by f x' s b).
Proof.
  intros Hf E. pose proof E as E0. unfold scale_by in E. destruct (lmax (irr x)) as [L|] eqn:El; [|discriminate]. cbn [bind] in E.
  destruct (broadcast_shapes (lead x) s) as [s'|] eqn:Es; [|discriminate].
  assert (Hn : flat (irr x) <> []). { intros En. destruct (lmax_err (irr x)) as [_ Q]. destruct (Q En) as (e & Q'). congruence. }
  eapply yields_like; [exact E0|apply (scale_yields f x s b s' Hx Hn Es); auto| |].
  - rewrite Si, Sl in *. apply (scale_yields f x' s b s' Hx'); auto.
  - intros i Hi. cbv beta. destruct (broadcast_valid _ _ _ _ Es Hi) as [V _]. rewrite Sa by exact V. rewrite Sl. reflexivity.
Qed.
Lemma rechunk_like t z : rechunk x t = Ok z -> succeeds_like z (rechunk x' t).
Proof.
  intros E. destruct (irreps_eqb (simplify (irr x)) (simplify t)) eqn:Es; [|unfold rechunk, rechunk_opt in E; rewrite Es in E; discriminate].
  apply irreps_eqb_eq in Es. eapply yields_like; [exact E|apply rechunk_yields; auto|rewrite Sl; apply rechunk_yields; auto; congruence|]. intros i Hi. apply Sa. exact Hi.
Qed.
Lemma sort_like z : ia_sort x = Ok z -> succeeds_like z (ia_sort x').
Proof. intros E. via sort_yields. intros i Hi. rewrite Sa, Si by exact Hi. reflexivity. Qed.
Lemma regroup_like z : ia_regroup x = Ok z -> succeeds_like z (ia_regroup x').
Proof. intros E. via ia_regroup_yields. intros i Hi. rewrite Sa, Si by exact Hi. reflexivity. Qed.

Lemma same_chunks_fst_filter s (P : mulirrep -> bool) : forall y cs cs' new, same_chunks s y cs cs' -> new = filter P y ->
  same_chunks s new (map fst (filter (fun '(_, m) => P m) (combine cs y))) (map fst (filter (fun '(_, m) => P m) (combine cs' y))).
Proof.
  induction y as [|m y IH]; intros [|c cs] [|c' cs'] new H ->; try contradiction; [exact I|]. destruct H as (A & B & C & H). cbn [combine filter]. destruct (P m); cbn [map fst same_chunks]; [split; [exact A|split; [exact B|split; [exact C|]]]|]; apply IH; auto.
Qed.
Lemma filter_sub_length {A} (P Q : A -> bool) : forall l, (forall a, In a l -> P a = true -> Q a = true) -> length (filter P l) = length (filter Q l) -> forall a, In a l -> P a = Q a.
Proof.
  assert (LE : forall l, (forall a, In a l -> P a = true -> Q a = true) -> length (filter P l) <= length (filter Q l)).
  { induction l as [|a l IH]; intros H; [reflexivity|]. cbn. specialize (IH (fun b Hb => H b (or_intror Hb))). destruct (P a) eqn:Pa; [rewrite (H a (or_introl eq_refl) Pa); cbn; lia|]. destruct (Q a); cbn; lia. }
  induction l as [|a l IH]; intros H E b Hb; [contradiction|]. pose proof (LE l (fun c Hc => H c (or_intror Hc))) as L. cbn in E. destruct (P a) eqn:Pa.
  - rewrite (H a (or_introl eq_refl) Pa) in E. cbn in E. destruct Hb as [<-|Hb]; [rewrite Pa; symmetry; apply H; [left; reflexivity|exact Pa]|]. apply IH; auto. intros c Hc. apply H. right. exact Hc.
  - destruct (Q a) eqn:Qa; [cbn in E; lia|]. destruct Hb as [<-|Hb]; [congruence|]. apply IH; auto. intros c Hc. apply H. right. exact Hc.
Qed.
Lemma filter_like keep drop lm z : ia_filter x keep drop lm = Ok z -> succeeds_like z (ia_filter x' keep drop lm).
Proof.
  assert (G : forall new, filter_irreps (irr x) keep drop lm = Ok new -> from_chunks new (map fst (filter (fun '(_, m) => contains new (snd m)) (combine (chunks x) (irr x)))) (lead x) true = Ok z ->
      succeeds_like z (from_chunks new (map fst (filter (fun '(_, m) => contains new (snd m)) (combine (chunks x') (irr x')))) (lead x') true)).
  { intros new En Ef. rewrite <- Si, <- Sl. eapply from_chunks_like; [|exact Ef]. apply filter_irreps_wants in En. apply same_chunks_fst_filter; [apply chunks_same; assumption|].
    assert (L : length new = length (map fst (filter (fun '(_, m) => contains new (snd m)) (combine (chunks x) (irr x))))).
    { unfold from_chunks in Ef. destruct (Nat.eqb_spec (length new) (length (map fst (filter (fun '(_, m) => contains new (snd m)) (combine (chunks x) (irr x)))))); [assumption|discriminate]. }
    rewrite (map_fst_filter_combine (fun m : mulirrep => contains new (snd m))) in L by (apply chunks_length, Hx).
    assert (L2 : forall (P : mulirrep -> bool) (v : list (option chunk)) (w : irreps), length v = length w -> length (select (map P w) v) = length (filter P w)).
    { intros P. induction v as [|a v IH]; intros [|b w] Lw; try discriminate; [reflexivity|]. cbn. destruct (P b); cbn; rewrite IH by (injection Lw; auto); reflexivity. }
    rewrite L2 in L by (apply chunks_length, Hx). rewrite En in L at 1.
    rewrite En at 1. apply filter_ext_in. apply filter_sub_length; [|exact L].
    intros m Hm Hw. unfold contains. apply existsb_exists. exists m. split; [rewrite En; apply filter_In; auto|apply irrep_eqb_refl]. }
  unfold ia_filter. destruct keep, drop, lm; intros E; try (apply bind_Ok in E as (new & En & E); rewrite <- Si, En; cbn [bind]; rewrite Si; exact (G new En E)). injection E as <-. exists x'. split; [reflexivity|exact S].
Qed.
Lemma extend_like new z : extend_with_zeros x new = Ok z -> succeeds_like z (extend_with_zeros x' new).
Proof.
  intros E. unfold extend_with_zeros in E. destruct (extend_loop (combine (irr x) (chunks x)) new) as [cs ok] eqn:El. destruct ok; [|discriminate]. cbn [negb] in E.
  unfold extend_with_zeros. rewrite <- Si, <- Sl.
  assert (Q : forall y c c' new cs ok, same_chunks (lead x) y c c' -> extend_loop (combine y c) new = (cs, ok) -> exists cs', extend_loop (combine y c') new = (cs', ok) /\ (ok = true -> same_chunks (lead x) new cs cs')).
  { clear. intros y c c' new. revert y c c'. induction new as [|m new IH]; intros [|n y] [|c cl] [|c' cl'] cs ok H E; try contradiction; cbn [combine extend_loop] in *.
    - injection E as <- <-. eexists. split; [reflexivity|]. intros _. exact I.
    - injection E as <- <-. eexists. split; [reflexivity|]. discriminate.
    - injection E as <- <-. eexists. split; [reflexivity|]. intros _. change (None :: repeat None (length new)) with (repeat (@None chunk) (length (m :: new))). generalize (m :: new). clear. induction l as [|m l IH]; cbn; auto.
    - destruct H as (A & B & C & H). destruct (mi_eqb n m) eqn:Em.
      + apply mi_eqb_eq in Em. subst n. destruct (extend_loop (combine y cl) new) as [rc ro] eqn:Er. injection E as <- <-. destruct (IH y cl cl' rc ro H Er) as (rc' & -> & Q). eexists. split; [reflexivity|]. intros K. cbn. auto.
      + destruct (extend_loop ((n, c) :: combine y cl) new) as [rc ro] eqn:Er. injection E as <- <-. destruct (IH (n :: y) (c :: cl) (c' :: cl') rc ro) as (rc' & Er' & Q); [cbn; auto|exact Er|]. cbn [combine] in Er'. rewrite Er'. eexists. split; [reflexivity|]. intros K. cbn. auto. }
  destruct (Q _ _ _ _ _ _ (chunks_same x x' Hx Hx' S) El) as (cs' & -> & K). cbn [negb]. eapply from_chunks_like; [apply K; reflexivity|exact E].
Qed.

(* ---------- slices ---------- *)
Lemma mul_slice_empty a b : (b < a)%Z -> forall src src' i l cs, map fst src = map fst src' -> ia_mul_slice_loop a b i src = Ok (l, cs) -> Forall (fun p => 0 <= fst p)%Z l ->
  l = [] /\ cs = [] /\ ia_mul_slice_loop a b i src' = Ok ([], []).
Proof.
  intros Hab. induction src as [|[[m ir] c] src IH]; intros [|[m' c'] src'] i l cs Em E F; try discriminate; cbn [ia_mul_slice_loop] in *; [injection E as <- <-; auto|].
  cbn in Em. injection Em as <- Em. destruct (Z.leb_spec a (Z.of_nat i)), (Z.leb_spec (Z.of_nat i + Z.of_nat m) b); cbn [andb] in *; try lia.
  all: destruct (Z.ltb_spec a (Z.of_nat i + Z.of_nat m)), (Z.ltb_spec (Z.of_nat i) b); cbn [andb] in *; try (eapply IH; eassumption).
  all: destruct c as [c|]; [|discriminate]; apply bind_Ok in E as ([l1 cs1] & _ & E); injection E as <- <-; inversion F as [|? ? F1 _]; subst; cbn [fst] in F1; lia.
Qed.
Lemma slice_by_mul_like sl z : (forall a b st, slice_indices sl (num_irreps (irr x)) = Ok (a, b, st) -> ~ cuts_zero_chunk x' (Z.to_nat a) (Z.to_nat b)) ->
  ia_slice_by_mul x sl = Ok z -> succeeds_like z (ia_slice_by_mul x' sl).
Proof.
  intros Hc E. pose proof E as E0. unfold ia_slice_by_mul in E. apply bind_Ok in E as ([[a b] st] & Es & E). destruct (Z.eqb_spec st 1) as [->|]; [|discriminate]. cbn [negb] in E.
  destruct (slice_indices_range _ _ _ _ _ Es) as (_ & R1 & _). destruct (R1 ltac:(lia)) as [Ha Hb].
  assert (Hb0 : (0 <= b)%Z). { unfold slice_indices in Es. cbv zeta in Es. destruct (match s_step sl with None => 1 | Some k => k end =? 0)%Z; [discriminate|]. injection Es as Ea Eb Est. rewrite Est in Eb. cbn in Eb. destruct (s_stop sl) as [t|]; [destruct (Z.ltb_spec t 0)|]; lia. }
  specialize (Hc a b 1%Z Es). destruct (Z.leb_spec a b) as [Hab|Hab].
  - assert (Es' : slice_indices sl (num_irreps (irr x)) = Ok (Z.of_nat (Z.to_nat a), Z.of_nat (Z.to_nat b), 1%Z)) by (rewrite !Z2Nat.id by lia; exact Es).
    assert (Hcx : ~ cuts_zero_chunk x (Z.to_nat a) (Z.to_nat b)). { intros Q. rewrite (slice_by_mul_cut x sl _ _ Hx Es') in E0; [discriminate|lia|exact Q]. }
    destruct (slice_by_mul_yields x sl _ _ Hx Es' ltac:(lia) Hcx) as (new & En & Y). rewrite Si in Es', En. destruct (slice_by_mul_yields x' sl _ _ Hx' Es' ltac:(lia) Hc) as (new' & En' & Y'). assert (new' = new) by congruence. subst new'.
    rewrite <- Sl in Y'. eapply yields_like; [exact E0|exact Y|exact Y'|]. intros i Hi. cbv beta. rewrite Sa, Si by exact Hi. reflexivity.
  - apply bind_Ok in E as ([l cs] & El & E). apply bind_Ok in E as (new & En & E).
    assert (F : Forall (fun p => 0 <= fst p)%Z l). { clear -En. revert new En. induction l as [|[k ir] l IH]; intros new En; [constructor|]. unfold mk_irreps in *. cbn [mapM] in En. destruct (Z.leb_spec 0 k); [|discriminate]. constructor; [cbn; lia|]. destruct (mapM _ l) eqn:El; [|discriminate]. eapply IH. reflexivity. }
    assert (Ep : map fst (combine (irr x) (chunks x)) = map fst (combine (irr x') (chunks x'))) by (rewrite !combine_map_fst by (symmetry; apply chunks_length; assumption); exact Si).
    destruct (mul_slice_empty a b Hab _ _ 0 l cs Ep El F) as (-> & -> & El'). unfold ia_slice_by_mul. rewrite <- Si, Es. cbn [bind]. change (negb (1 =? 1)%Z) with false. cbv iota. rewrite Si, El'. cbn [bind].
    rewrite En. cbn [bind]. rewrite <- Sl. exists z. split; [exact E|apply same_refl].
Qed.
Lemma slice_by_chunk_like sl z : ia_slice_by_chunk x sl = Ok z -> succeeds_like z (ia_slice_by_chunk x' sl).
Proof.
  intros E. pose proof E as E0. unfold ia_slice_by_chunk in E. apply bind_Ok in E as ([[a b] st] & Es & E). apply bind_Ok in E as (new & En & E).
  assert (R : resolved sl (length (irr x)) = Ok (Slice (Some a) (Some b) (Some st))) by (unfold resolved; rewrite Es; reflexivity).
  destruct (slice_by_chunk_yields x sl _ new Hx R En) as (f & Y & Q). rewrite Si in R, En. destruct (slice_by_chunk_yields x' sl _ new Hx' R En) as (f' & Y' & Q'). rewrite <- Sl in Y', Q'.
  eapply yields_like; [exact E0|exact Y|exact Y'|]. intros i Hi. specialize (Q i Hi). specialize (Q' i Hi). rewrite <- Si, <- Sa, Q in Q' by exact Hi. congruence.
Qed.
Lemma getitem_irreps_like t z : ia_getitem_irreps x t = Ok z -> succeeds_like z (ia_getitem_irreps x' t).
Proof.
  intros E. destruct (match_positions (irr x) t) as [|k [|? ?]] eqn:Em; [unfold ia_getitem_irreps in E; rewrite Em in E; discriminate| |unfold ia_getitem_irreps in E; rewrite Em in E; discriminate].
  eapply yields_like; [exact E|apply (getitem_irreps_yields x t k Hx Em)| |].
  - rewrite Si in Em. rewrite Sl. apply (getitem_irreps_yields x' t k Hx' Em).
  - intros i Hi. cbv beta. rewrite Sa, Si by exact Hi. reflexivity.
Qed.
End Like.

Lemma getslice_like a b : forall fuel x x' z, coherent x -> coherent x' -> same x x' -> b <= dim (irr x) -> getslice fuel x a b = Some (Ok z) -> exists z', getslice fuel x' a b = Some (Ok z') /\ same z z'.
Proof.
  induction fuel as [|fuel IH]; intros x x' z Hx Hx' S Hb E; [discriminate|]. cbn [getslice] in *. pose proof S as (Si & Sl & Sa). rewrite <- Si. destruct (getslice_loop (irr x) a b (Datatypes.S (length (irr x))) 0 None) as [j m|[p|] [q|]] eqn:El; try discriminate.
  - destruct (split_entry (irr x) j m) as [t|]; [|discriminate]. cbn [bind] in *. destruct (rechunk x t) as [y|e] eqn:Er; [|discriminate].
    destruct (rechunk_like x x' Hx Hx' S t y Er) as (y' & Er' & Sy). rewrite Er'.
    assert (Es : simplify (irr x) = simplify t). { destruct (irreps_eqb (simplify (irr x)) (simplify t)) eqn:Es; [|unfold rechunk, rechunk_opt in Er; rewrite Es in Er; discriminate]. apply irreps_eqb_eq, Es. }
    assert (Ey : irr y = t). { destruct (rechunk_yields x t Hx Es) as (w & Ew & Q & _). congruence. }
    eapply (IH y y'); eauto using rechunk_coherent. rewrite Ey. rewrite <- dims_flat in *. apply simplify_iff in Es. rewrite <- Es. exact Hb.
  - pose proof (getslice_loop_sound (irr x) a b (Datatypes.S (length (irr x))) 0 None) as Snd. rewrite El in Snd. destruct Snd as (Hpq & Hq & <- & <-); [lia|intros; lia|intros; lia|].
    injection E as E. assert (Y := entry_range_yields x p q _ Hx Hpq eq_refl). assert (Y' := entry_range_yields x' p q _ Hx' Hpq eq_refl). rewrite <- Si, <- Sl in Y'. rewrite Nat.min_l in * by apply dim_firstn_le. rewrite <- Sl.
    destruct (yields_like _ _ _ _ _ _ _ E Y Y') as (z' & Ez & Sz); [intros i Hi; cbv beta; rewrite Sa by exact Hi; reflexivity|]. exists z'. split; [rewrite Ez; reflexivity|exact Sz].
Qed.
Lemma ia_getslice_like x x' a b z : coherent x -> coherent x' -> same x x' -> ia_getslice x (Slice a b None) = Some (Ok z) -> exists z', ia_getslice x' (Slice a b None) = Some (Ok z') /\ same z z'.
Proof.
  intros Hx Hx' S E. unfold ia_getslice in *. rewrite <- (proj1 S). destruct (slice_indices (Slice a b None) (dim (irr x))) as [[[s t] st]|] eqn:Es; [|discriminate].
  destruct (slice_indices_range _ _ _ _ _ Es) as (_ & R1 & _). assert (st = 1%Z) by (unfold slice_indices in Es; cbn in Es; congruence). subst st.
  destruct (R1 ltac:(lia)) as [_ Hb]. apply (getslice_like _ _ 4 x x' z Hx Hx' S); [lia|exact E].
Qed.
Lemma index_all_like x x' its li z : coherent x -> coherent x' -> same x x' -> leaves_features (length (lead x)) its li -> index_all x its = Ok z -> succeeds_like z (index_all x' its).
Proof.
  intros H H' (Si & Sl & Sa) Hl E. destruct (np_index li (lead x)) as [sels|e] eqn:En.
  - eapply yields_like; [exact E|apply (index_all_yields x its li sels H Hl En)| |].
    + rewrite Si. rewrite Sl in *. apply (index_all_yields x' its li sels H' Hl En).
    + intros i Hi. cbv beta. apply Sa. eapply gather_valid; [|exact Hi]. eapply resolve_ok, np_index_resolve, En.
  - exfalso. unfold index_all in E. pose proof (np_index_features _ its li (lead x) [dim (irr x)] Hl eq_refl) as Q. specialize (Q ltac:(cbn; lia) 0 eq_refl). cbn [repeat] in Q. rewrite app_nil_r in Q. rewrite Q, En in E. discriminate.
Qed.

Lemma getitem_form f a n :
  (forall x, length (lead x) = n -> ia_getitem x (f ++ [a]) = Some (index_all x (f ++ [a]))) /\ ~ ((has_ellipsis f = true \/ length f = n) /\ is_feature_slice a = true) \/
  (exists sl, a = ISlice sl /\ is_feature_slice a = true /\ (has_ellipsis f = true \/ length f = n) /\
     forall x, length (lead x) = n -> ia_getitem x (f ++ [a]) = match ia_getslice x sl with Some (Ok y) => Some (index_all y (f ++ [colon])) | r => r end) \/
  (forall x, length (lead x) = n -> ia_getitem x (f ++ [a]) = Some (Err IndexError)).
Proof.
  assert (U : forall x, length (lead x) = n -> ia_getitem x (f ++ [a]) =
    if (has_ellipsis f || (length f =? n)) && is_feature_slice a then
      match a with ISlice sl => match ia_getslice x sl with Some (Ok y) => Some (index_all y (f ++ [colon])) | r => r end | _ => Some (Err TypeError) end
    else if ((length f =? S n) || has_ellipsis f) && is_new a then Some (Err IndexError)
    else if ((length f =? n) || has_ellipsis f) && negb (is_ellipsis a || is_colon a || is_new a) then Some (Err IndexError)
    else Some (index_all x (f ++ [a]))).
  { intros x <-. unfold ia_getitem. destruct (f ++ [a]) as [|b0 l0] eqn:Efa; [destruct f; discriminate|]. rewrite <- Efa. clear Efa b0 l0.
    unfold last_item. rewrite removelast_app1, last_app1. fold (has_ellipsis f).
    replace (length (f ++ [a]) =? S (length (lead x))) with (length f =? length (lead x)) by (rewrite app_length; cbn; rewrite Nat.add_1_r; reflexivity). reflexivity. }
  destruct ((has_ellipsis f || (length f =? n)) && is_feature_slice a) eqn:G1.
  - apply andb_true_iff in G1 as [G1 G2]. right. left. destruct a as [|sl| |]; try discriminate. exists sl. repeat split; auto.
    apply orb_true_iff in G1 as [G1|G1]; [left; exact G1|right; apply Nat.eqb_eq, G1].
  - destruct (((length f =? S n) || has_ellipsis f) && is_new a); [right; right; exact U|]. destruct (((length f =? n) || has_ellipsis f) && negb (is_ellipsis a || is_colon a || is_new a)); [right; right; exact U|].
    left. split; [exact U|]. intros [Q Q']. rewrite Q', andb_true_r in G1. apply orb_false_iff in G1 as [G1 G3]. apply Nat.eqb_neq in G3. destruct Q; [congruence|contradiction].
Qed.
Lemma index_like x x' its z : coherent x -> coherent x' -> same x x' -> existsb is_new its = false -> length its <= S (length (lead x)) -> ia_getitem x its = Some (Ok z) ->
  exists z', ia_getitem x' its = Some (Ok z') /\ same z z'.
Proof.
  intros H H' S Hn Hl E. pose proof S as (Si & Sl & Sa).
  assert (Hne : its <> []) by (intros ->; discriminate). destruct (exists_last Hne) as (f & a & ->). clear Hne.
  pose proof (guard_leaves x _ z E Hn Hl) as GL.
  assert (Lx' : length (lead x') = length (lead x)) by (rewrite Sl; reflexivity).
  rewrite existsb_app in Hn. apply orb_false_iff in Hn as [Hf Ha].
  assert (INV : leaves_features (length (lead x)) (f ++ [colon]) f -> has_ellipsis f = true \/ length f = length (lead x)).
  { intros L. inversion L as [its0 A B C D|its0 [[A B]|[A B]] C D|its0 A B C D].
    - exfalso. apply (f_equal (@length item)) in D. rewrite app_length in D. cbn in D. lia.
    - apply app_inj_tail in C as [-> _]. right. rewrite <- (consumed_all f); auto.
    - apply app_inj_tail in C as [-> _]. auto.
    - apply app_inj_tail in C as [_ C]. discriminate. }
  destruct (getitem_form f a (length (lead x))) as [[U N]|[(sl & -> & Fs & C & U)|U]].
  - rewrite (U x') by exact Lx'. rewrite (U x eq_refl) in E. injection E as E. destruct GL as [(li & L & _)|(front & sl & y & Q & Fs & _ & L & _)].
    + destruct (index_all_like x x' _ li z H H' S L E) as (z' & -> & Sz). eauto.
    + exfalso. apply app_inj_tail in Q as [<- ->]. apply N. auto.
  - rewrite (U x') by exact Lx'. rewrite (U x eq_refl) in E. destruct (ia_getslice x sl) as [[y|]|] eqn:Ey; try discriminate. injection E as E.
    destruct sl as [u v st]. assert (st = None) by (destruct u, v, st; cbn in Fs; congruence). subst st.
    destruct (ia_getslice_like x x' u v y H H' S Ey) as (y' & Ey' & Sy). rewrite Ey'. destruct (getslice_coherent x u v y H Ey) as [Cy Ly]. destruct (getslice_coherent x' u v y' H' Ey') as [Cy' Ly'].
    assert (L : leaves_features (length (lead y)) (f ++ [colon]) f).
    { rewrite Ly. apply lf_colon. destruct (has_ellipsis f) eqn:Ee.
      - right. split; [reflexivity|]. pose proof (consumed_dots f Ee). rewrite app_length in Hl. cbn in Hl. lia.
      - left. split; [reflexivity|]. destruct C as [C|C]; [discriminate|]. rewrite consumed_all by assumption. exact C. }
    destruct (index_all_like y y' _ f z Cy Cy' Sy L E) as (z' & -> & Sz). eauto.
  - rewrite (U x eq_refl) in E. discriminate.
Qed.

(* ---------- leading axes ---------- *)
Lemma ravel_lead s t i : prod s = prod t -> valid s i -> valid t (unravel t (ravel s i)).
Proof. intros E Hi. apply unravel_valid. rewrite <- E. apply ravel_bound, Hi. Qed.
Lemma reshape_like x x' s z : coherent x -> coherent x' -> same x x' -> ia_reshape x s = Ok z -> succeeds_like z (ia_reshape x' s).
Proof.
  intros H H' (Si & Sl & Sa) E. destruct (Nat.eqb_spec (prod s) (prod (lead x))) as [Hs|Hs]; [|rewrite reshape_rejects in E by exact Hs; discriminate].
  eapply yields_like; [exact E|apply (reshape_yields x s H Hs)|rewrite Si; apply (reshape_yields x' s H'); congruence|].
  intros i Hi. cbv beta. rewrite <- Sl. apply Sa. apply ravel_lead; assumption.
Qed.
Lemma broadcast_to_like x x' s z : coherent x -> coherent x' -> same x x' -> broadcast_to x s = Ok z -> succeeds_like z (broadcast_to x' s).
Proof.
  intros H H' (Si & Sl & Sa) E. pose proof E as E0. unfold broadcast_to in E. apply bind_Ok in E as (t & Et & E). destruct (shape_eqb t s) eqn:Q; [|discriminate]. apply shape_eqb_eq in Q. subst t.
  eapply yields_like; [exact E0|apply (broadcast_to_yields x s H Et)|rewrite Si; apply (broadcast_to_yields x' s H'); congruence|].
  intros i Hi. cbv beta. rewrite <- Sl. apply Sa. destruct (broadcast_valid _ _ _ _ Et Hi); assumption.
Qed.
Lemma at_rows_ext upd sels a a' v v' j : a j = a' j -> (forall o, valid (out_shape sels) o -> v o = v' o) -> at_rows upd sels a v j = at_rows upd sels a' v' j.
Proof.
  intros Ha Hv. unfold at_rows. destruct (find _ _) as [o|] eqn:F; [|exact Ha]. apply find_some in F as [F _]. apply all_idx_valid in F. rewrite Ha, Hv by exact F. reflexivity.
Qed.
Lemma at_set_zero_like x x' its z : coherent x -> coherent x' -> same x x' -> at_set_zero x its = Ok z -> succeeds_like z (at_set_zero x' its).
Proof.
  intros H H' (Si & Sl & Sa) E. pose proof E as E0. unfold at_set_zero in E. apply bind_Ok in E as (li & El & E). apply bind_Ok in E as (sels & Es & E).
  eapply yields_like; [exact E0|apply (at_set_zero_yields x its li sels H El Es)| |].
  - rewrite Si, Sl in *. apply (at_set_zero_yields x' its li sels H' El Es).
  - intros i Hi. cbv beta. apply at_rows_ext; [apply Sa, Hi|]. rewrite Si. reflexivity.
Qed.
Lemma at_update_like upd x x' its v v' z : coherent x -> coherent x' -> same x x' -> coherent v -> coherent v' -> same v v' -> (upd = (fun _ v => v) \/ upd = zipR Rplus) ->
  at_update upd x its v = Ok z -> succeeds_like z (at_update upd x' its v').
Proof.
  intros H H' (Si & Sl & Sa) Hv Hv' (Ti & Tl & Ta) Hu E. pose proof E as E0. unfold at_update in E. apply bind_Ok in E as (li & El & E).
  destruct (irreps_eqb (simplify (irr x)) (simplify (irr v))) eqn:Ei; [|discriminate]. cbn [negb] in E. apply irreps_eqb_eq in Ei. symmetry in Ei.
  apply bind_Ok in E as (w & Ev & E). apply bind_Ok in E as (sels & Es & E). apply bind_Ok in E as (t & Et & E).
  destruct (shape_eqb t (out_shape sels)) eqn:Q; [|discriminate]. apply shape_eqb_eq in Q. subst t.
  destruct (rechunk_yields v (irr x) Hv Ei) as (w' & Ev' & _ & Lv & _). replace w' with w in * by congruence. rewrite Lv in Et.
  eapply yields_like; [exact E0|apply (at_update_yields upd x its v li sels H Hv Ei El Es Et Hu)| |].
  - rewrite Si, Sl, Ti, Tl in *. apply (at_update_yields upd x' its v' li sels H' Hv' Ei El Es Et Hu).
  - intros i Hi. cbv beta. apply at_rows_ext; [apply Sa, Hi|]. intros o Ho. rewrite <- Tl. apply Ta. destruct (broadcast_valid _ _ _ _ Et Ho); assumption.
Qed.
Lemma reduce_lead_like op x x' l kd z : coherent x -> coherent x' -> same x x' -> reduce_lead op x l kd = Ok z -> succeeds_like z (reduce_lead op x' l kd).
Proof.
  intros H H' S E. pose proof S as (Si & Sl & Sa). destruct l as [|b l]; [injection E as <-; exists x'; split; [reflexivity|exact S]|].
  assert (N : b :: l <> []) by discriminate. pose proof (reduce_lead_yields op x (b :: l) kd H N) as Y. pose proof (reduce_lead_yields op x' (b :: l) kd H' N) as Y'. cbv zeta in *. rewrite <- Si, <- Sl in Y'.
  eapply yields_like; [exact E|exact Y|exact Y'|]. intros i Hi. cbv beta. f_equal. f_equal. apply map_ext_in. intros j Hj.
  apply Sa. pose proof (fibre_valid kd (reduced_axes (length (lead x)) (b :: l)) (lead x) i) as F. rewrite Forall_forall in F. apply F; [|exact Hi|exact Hj]. unfold reduced_axes. rewrite map_length, seq_length. reflexivity.
Qed.
Lemma reduce_mul_like op x x' z : coherent x -> coherent x' -> same x x' -> reduce_mul op x = Ok z -> succeeds_like z (reduce_mul op x').
Proof.
  intros H H' (Si & Sl & Sa) E. pose proof (reduce_mul_yields op x H) as Y. pose proof (reduce_mul_yields op x' H') as Y'. rewrite <- Si, <- Sl in Y'.
  eapply yields_like; [exact E|exact Y|exact Y'|]. intros i Hi. cbv beta. apply (blockwise_data (valid (lead x))); [|exact Sa]. intros m c d Q. unfold V_reduce. rewrite Q by exact Hi. reflexivity.
Qed.
Lemma reduce_lead_coherent op x l kd y : coherent x -> reduce_lead op x l kd = Ok y -> coherent y.
Proof. intros H Ey. destruct l as [|b l]; [injection Ey as <-; exact H|]. eapply yields_coherent; [apply (reduce_lead_yields op x (b :: l) kd H); discriminate|exact Ey]. Qed.
Lemma reduce_like op x x' axis kd z : coherent x -> coherent x' -> same x x' -> reduce op x axis kd = Ok z -> succeeds_like z (reduce op x' axis kd).
Proof.
  intros H H' S E. pose proof S as (Si & Sl & Sa). unfold reduce in *. rewrite <- Sl. apply bind_Ok in E as (axes & -> & E). cbn [bind]. destruct axes as [|a axes]; [injection E as <-; exists x'; split; [reflexivity|exact S]|].
  destruct (_ <? _); [apply (reduce_lead_like op x x' _ kd z H H' S E)|]. apply bind_Ok in E as (y & Ey & E). destruct (reduce_lead_like _ _ _ _ _ _ H H' S Ey) as (y' & Ey' & Sy). rewrite Ey'. cbn [bind].
  apply (reduce_mul_like op y y'); eauto using reduce_lead_coherent.
Qed.
Lemma norm_like x x' sq pi z : coherent x -> coherent x' -> same x x' -> norm x sq pi = Ok z -> succeeds_like z (norm x' sq pi).
Proof.
  intros H H' (Si & Sl & Sa) E. destruct pi.
  - pose proof (norm_yields x sq H) as Y. pose proof (norm_yields x' sq H') as Y'. rewrite <- Si, <- Sl in Y'. eapply yields_like; [exact E|exact Y|exact Y'|].
    intros i Hi. cbv beta. apply (blockwise_data (valid (lead x))); [|exact Sa]. intros m c d Q. unfold V_norm. rewrite Q by exact Hi. reflexivity.
  - pose proof (norm_total_yields x sq H) as Y. pose proof (norm_total_yields x' sq H') as Y'. rewrite <- Sl in Y'. eapply yields_like; [exact E|exact Y|exact Y'|]. intros i Hi. cbv beta. rewrite Sa by exact Hi. reflexivity.
Qed.
Lemma transform_like D x x' z : rep_ok D -> coherent x -> coherent x' -> same x x' -> transform D x = Ok z -> succeeds_like z (transform D x').
Proof.
  intros HD H H' (Si & Sl & Sa) E. pose proof (transform_act D x H HD) as Y. pose proof (transform_act D x' H' HD) as Y'. rewrite <- Si, <- Sl in Y'. eapply yields_like; [exact E|exact Y|exact Y'|]. intros i Hi. cbv beta. rewrite Sa by exact Hi. reflexivity.
Qed.
Lemma mul_to_axis_like x x' factor axis z : coherent x -> coherent x' -> same x x' -> standard_axis axis (S (S (length (lead x)))) = Ok (length (lead x)) ->
  mul_to_axis x factor axis = Ok z -> succeeds_like z (mul_to_axis x' factor axis).
Proof.
  intros H H' (Si & Sl & Sa) Ek E.
  assert (M : forall w, length (lead w) = length (lead x) -> irr w = irr x -> mul_to_axis w factor axis = match (match factor with Some f => Ok f | None => match irr x with [] => Err TypeError | _ => Ok (mul_gcd (irr x)) end end) with Ok f => mul_to_axis w (Some f) (-2) | Err e => Err e end).
  { intros w Lw Iw. unfold mul_to_axis. rewrite Lw, Ek, standard_axis_m2, Iw. cbn [bind]. destruct factor as [f|]; [reflexivity|]. destruct (irr x); reflexivity. }
  rewrite M in E by reflexivity. rewrite M by congruence. destruct (match factor with Some f => Ok f | None => _ end) as [f|e]; [|discriminate].
  pose proof E as E0. unfold mul_to_axis in E. rewrite standard_axis_m2 in E. cbn [bind] in E. destruct ((f =? 0) && negb (length (irr x) =? 0)) eqn:Ez; [discriminate|]. destruct (forallb _ (irr x)) eqn:Ef; [|discriminate]. clear E.
  destruct (Nat.eq_dec f 0) as [Hf|Hf]; [subst f|].
  - cbn in Ez. destruct (irr x) as [|m0 l0] eqn:Ex; [|discriminate]. clear Ez Ef M. unfold mul_to_axis in *. rewrite <- Sl, <- Si, standard_axis_m2 in *. rewrite Ex in *. cbn [bind length Nat.eqb negb andb forallb map combine] in *. exists z. split; [exact E0|apply same_refl].
  - assert (F : Forall (fun m => fst m mod f = 0) (irr x)). { apply Forall_forall. intros [m ir] Hin. rewrite forallb_forall in Ef. specialize (Ef _ Hin). cbn in *. apply Nat.eqb_eq, Ef. }
    pose proof (mul_to_axis_yields x f H Hf F) as Y. rewrite Si in F. pose proof (mul_to_axis_yields x' f H' Hf F) as Y'. rewrite <- Si, <- Sl in Y'. eapply yields_like; [exact E0|exact Y|exact Y'|].
    intros i Hi. cbv beta. apply (blockwise_data (valid (lead x))); [|exact Sa]. intros m c d Q. unfold V_split. apply valid_app_inv in Hi as (j & q & -> & Hj & Hq). inversion Hq as [|u ? q' ? Hu Hq']; subst. inversion Hq'; subst. rewrite removelast_app1, Q by exact Hj. reflexivity.
Qed.
(* chunk maps that turn zeros into zeros *)
Lemma same_chunks_map s s' (G : mulirrep -> mulirrep) (F : mulirrep -> chunk -> chunk) : forall x cs cs',
  (forall m c, In m x -> wf_chunk s m c -> wf_chunk s' (G m) (F m c)) ->
  (forall m c c' i, In m x -> wf_chunk s m c -> wf_chunk s m c' -> (forall j, valid s j -> c_val c j = c_val c' j) -> valid s' i -> c_val (F m c) i = c_val (F m c') i) ->
  (forall m c i, In m x -> wf_chunk s m c -> (forall j, valid s j -> c_val c j = zeros_rows (fst m) (ir_dim (snd m))) -> valid s' i -> c_val (F m c) i = zeros_rows (fst (G m)) (ir_dim (snd (G m)))) ->
  same_chunks s x cs cs' -> same_chunks s' (map G x) (map (fun '(m, c) => option_map (F m) c) (combine x cs)) (map (fun '(m, c) => option_map (F m) c) (combine x cs')).
Proof.
  induction x as [|m x IH]; intros [|c cs] [|c' cs'] W E Z H; try contradiction; [exact I|]. destruct H as (A & B & C & H). cbn [map combine same_chunks].
  assert (R : forall j, valid s j -> rows_of m c j = rows_of m c' j).
  { intros j Hj. destruct (rows_of_wf s m c j A Hj) as [L1 F1]. destruct (rows_of_wf s m c' j B Hj) as [L2 F2]. specialize (C j Hj). rewrite !den_rows in C.
    rewrite <- (group_rows_concat (fst m) (ir_dim (snd m)) _ L1 F1), <- (group_rows_concat (fst m) (ir_dim (snd m)) _ L2 F2), C. reflexivity. }
  split; [destruct c; [apply W; [left; reflexivity|exact A]|exact I]|]. split; [destruct c'; [apply W; [left; reflexivity|exact B]|exact I]|]. split.
  - intros i Hi. rewrite !den_rows. f_equal. destruct c as [c|], c' as [c'|]; cbn [option_map rows_of] in *; auto.
    + apply E; auto. left. reflexivity.
    + apply Z; auto. left. reflexivity.
    + symmetry. apply Z; auto; [left; reflexivity|]. intros j Hj. symmetry. apply R, Hj.
  - apply IH; [| | |exact H]; intros; [apply W|eapply E|eapply Z]; eauto; right; assumption.
Qed.
Lemma axis_mul_pos k s new_mul c i u : k < length (c_lead c) -> s = removelast (c_lead c) -> new_mul = last (c_lead c) 0 * c_mul c -> valid s i -> u < new_mul ->
  exists a v, unravel (move_last_shape k (c_lead c) ++ [c_mul c]) (ravel (s ++ [new_mul]) (i ++ [u])) = a ++ [v] /\ valid (c_lead c) (move_last_idx k a) /\ v < c_mul c.
Proof.
  intros Hk -> -> Hi Hu. set (s := c_lead c) in *. assert (Hs : s <> []) by (intros Q; rewrite Q in Hk; cbn in Hk; lia). set (p := ravel _ _).
  assert (Hp : p < prod (move_last_shape k s ++ [c_mul c])).
  { unfold p. rewrite prod_app, prod_move by exact Hk. cbn. rewrite Nat.mul_1_r. eapply Nat.lt_le_trans; [apply ravel_bound|].
    - apply valid_app; [exact Hi|]. constructor; [|constructor]. lia.
    - rewrite prod_app. cbn. pose proof (prod_removelast s Hs). nia. }
  pose proof (unravel_valid _ _ Hp) as Hv. set (j := unravel _ p) in *. apply valid_app_inv in Hv as (a & b & Ej & Ha & Hb).
  assert (X : exists v, b = [v] /\ v < c_mul c) by (clear -Hb; inversion Hb as [|v ? ? b' Hv Hb']; subst; inversion Hb'; subst; eauto). destruct X as (v & -> & Hv').
  exists a, v. split; [exact Ej|]. split; [apply move_last_valid; assumption|exact Hv'].
Qed.
Lemma axis_to_mul_like x x' axis z : coherent x -> coherent x' -> same x x' -> axis_to_mul x axis = Ok z -> succeeds_like z (axis_to_mul x' axis).
Proof.
  intros H H' S E. pose proof S as (Si & Sl & Sa). unfold axis_to_mul in *. rewrite <- Sl, <- Si. destruct (lead x) as [|d s] eqn:El; [discriminate|]. rewrite <- El in *. apply bind_Ok in E as (k & Ek & E). rewrite Ek. cbn [bind].
  destruct (Nat.eqb_spec k (length (lead x))) as [|Hk]; [discriminate|]. apply standard_axis_lt in Ek.
  set (n := last (lead x) 0) in *. set (G := fun m : mulirrep => (n * fst m, snd m)).
  assert (Eg : map (fun '(mul, ir) => (n * mul, ir)) (irr x) = map G (irr x)) by (apply map_ext; intros []; reflexivity). rewrite Eg in *.
  assert (Ec : forall cs, map (fun '((mul, _), c) => option_map (axis_mul_chunk k (removelast (lead x)) mul) c) (combine (map G (irr x)) cs) =
     map (fun '(m, c) => option_map ((fun m => axis_mul_chunk k (removelast (lead x)) (n * fst m)) m) c) (combine (irr x) cs)).
  { intros cs. rewrite <- (combine_option_map (fun m => axis_mul_chunk k (removelast (lead x)) (fst m)) G). apply map_ext. intros [[m ir] c]. reflexivity. }
  rewrite Ec in E |- *. eapply from_chunks_like; [|exact E]. apply (same_chunks_map (lead x)); [| | |apply chunks_same; assumption].
  - intros m c Hin W. pose proof W as W0. apply good_of_wf in W as (L & M & Gc). destruct W0 as (_ & _ & Dc & _). rewrite <- L. apply good_wf; try (cbn; reflexivity).
    + apply axis_mul_good; auto. rewrite L. lia. unfold n. rewrite L. reflexivity.
    + cbn. exact Dc.
  - intros m c c' i Hin (L & M & Dc & W) (L' & M' & Dc' & W') Q Hi. cbn [axis_mul_chunk c_val]. apply map_ext_in. intros u Hu. apply in_seq in Hu. rewrite L, L', M, M'.
    destruct (axis_mul_pos k (removelast (lead x)) (n * fst m) c i u) as (a & v & Ej & Va & Hv); [rewrite L; lia|rewrite L; reflexivity|rewrite L, M; reflexivity|exact Hi|lia|].
    rewrite L, M in *. rewrite Ej, removelast_app1, last_app1. rewrite Q by exact Va. reflexivity.
  - intros m c i Hin (L & M & Dc & W) Q Hi. cbn [axis_mul_chunk c_val]. rewrite L, M. unfold zeros_rows, G. cbn [fst snd].
    transitivity (map (fun _ : nat => repeat 0%R (ir_dim (snd m))) (seq 0 (n * fst m))).
    + apply map_ext_in. intros u Hu. apply in_seq in Hu. destruct (axis_mul_pos k (removelast (lead x)) (n * fst m) c i u) as (a & v & Ej & Va & Hv); [rewrite L; lia|rewrite L; reflexivity|rewrite L, M; reflexivity|exact Hi|lia|].
      rewrite L, M in *. rewrite Ej, removelast_app1, last_app1, Q by exact Va. unfold zeros_rows. rewrite (nth_indep _ [] (repeat 0%R (ir_dim (snd m)))) by (rewrite repeat_length; exact Hv). apply nth_repeat.
    + generalize (n * fst m) 0. induction n0 as [|n0 IH]; intros k0; [reflexivity|]. cbn. rewrite IH. reflexivity.
Qed.
Lemma axis_to_irreps_like x x' axis z : coherent x -> coherent x' -> same x x' -> axis_to_irreps x axis = Ok z -> succeeds_like z (axis_to_irreps x' axis).
Proof.
  intros H H' S E. pose proof S as (Si & Sl & Sa). unfold axis_to_irreps in *. rewrite <- Sl, <- Si. destruct (lead x) as [|d s] eqn:El; [discriminate|]. rewrite <- El in *. apply bind_Ok in E as (k & Ek & E). rewrite Ek. cbn [bind].
  destruct (Nat.eqb_spec k (length (lead x))) as [|Hk]; [discriminate|]. apply standard_axis_lt in Ek. set (new := simplify (repeat_irreps (irr x) (nth k (lead x) 0))) in *.
  destruct (Nat.eqb_spec (prod (removelast (lead x)) * dim new) (prod (lead x) * dim (irr x))) as [Ep|]; [|discriminate]. cbn [negb] in *.
  eapply yields_like; [exact E|apply new_yields; intros; rewrite map_length, seq_length; reflexivity|apply new_yields; intros; rewrite map_length, seq_length; reflexivity|].
  intros i Hi. cbv beta. apply map_ext_in. intros f Hf. apply in_seq in Hf.
  set (p := ravel _ _). assert (Hp : p < prod (move_last_shape k (lead x) ++ [dim (irr x)])).
  { rewrite prod_app, prod_move by lia. cbn. rewrite Nat.mul_1_r, <- Ep. eapply Nat.lt_le_trans; [apply ravel_bound; apply valid_app; [exact Hi|constructor; [|constructor]; lia]|]. rewrite prod_app. cbn. lia. }
  pose proof (unravel_valid _ _ Hp) as Hv. set (j := unravel _ p) in *. apply valid_app_inv in Hv as (a & b & Ej & Ha & Hb).
  assert (X : exists v, b = [v]) by (clear -Hb; inversion Hb as [|v ? ? b' Hv Hb']; subst; inversion Hb'; subst; eauto). destruct X as (v & ->).
  rewrite Ej, removelast_app1, last_app1, Sa; [reflexivity|]. apply move_last_valid; [lia|exact Ha].
Qed.

(* ---------- operations on several arrays ---------- *)
Lemma add_like x x' y y' z : coherent x -> coherent x' -> same x x' -> coherent y -> coherent y' -> same y y' -> add x y = Ok z -> succeeds_like z (add x' y').
Proof.
  intros Hx Hx' (Si & Sl & Sa) Hy Hy' (Ti & Tl & Ta) E. destruct (irreps_eqb (irr x) (irr y)) eqn:Ei; [|unfold add in E; rewrite Ei in E; discriminate]. apply irreps_eqb_eq in Ei.
  destruct (broadcast_shapes (lead x) (lead y)) as [s|] eqn:Es; [|unfold add in E; rewrite Ei, irreps_eqb_refl, Es in E; discriminate].
  destruct (add_ok x y s Hx Hy Ei Es) as [Y _]. destruct (add_ok x' y' s Hx' Hy') as [Y' _]; [congruence|congruence|]. rewrite <- Si in Y'.
  eapply returns_like; [exact E|exact Y|exact Y'|]. intros i Hi. cbv beta. rewrite <- Sl, <- Tl. destruct (broadcast_valid _ _ _ _ Es Hi) as [V1 V2]. rewrite Sa, Ta by assumption. reflexivity.
Qed.
Lemma sub_like x x' y y' z : coherent x -> coherent x' -> same x x' -> coherent y -> coherent y' -> same y y' -> sub x y = Ok z -> succeeds_like z (sub x' y').
Proof.
  intros Hx Hx' (Si & Sl & Sa) Hy Hy' (Ti & Tl & Ta) E. destruct (irreps_eqb (irr x) (irr y)) eqn:Ei; [|unfold sub in E; rewrite Ei in E; discriminate]. apply irreps_eqb_eq in Ei.
  destruct (broadcast_shapes (lead x) (lead y)) as [s|] eqn:Es; [|unfold sub in E; rewrite Ei, irreps_eqb_refl, Es in E; discriminate].
  destruct (sub_ok x y s Hx Hy Ei Es) as [Y _]. destruct (sub_ok x' y' s Hx' Hy') as [Y' _]; [congruence|congruence|]. rewrite <- Si in Y'.
  eapply returns_like; [exact E|exact Y|exact Y'|]. intros i Hi. cbv beta. rewrite <- Sl, <- Tl. destruct (broadcast_valid _ _ _ _ Es Hi) as [V1 V2]. rewrite Sa, Ta by assumption. reflexivity.
Qed.
Lemma where_like sm mask x x' y y' z : coherent x -> coherent x' -> same x x' -> coherent y -> coherent y' -> same y y' -> where_ sm mask x y = Ok z -> succeeds_like z (where_ sm mask x' y').
Proof.
  intros Hx Hx' (Si & Sl & Sa) Hy Hy' (Ti & Tl & Ta) E. pose proof E as E0. unfold where_ in E. destruct (irreps_eqb (irr x) (irr y)) eqn:Ei; [|discriminate]. destruct (shape_eqb (lead x) (lead y)) eqn:El; [|discriminate].
  cbn [negb] in E. apply bind_Ok in E as (s & Es & E). apply irreps_eqb_eq in Ei. apply shape_eqb_eq in El. pose proof (where_yields sm mask x y s Hx Hy Ei El Es) as Y.
  assert (Y' : yields (where_ sm mask x' y') (irr x') s (fun i => if mask (bidx sm i) then arr x' (bidx (lead x') i) else arr y' (bidx (lead x') i))) by (apply where_yields; auto; congruence).
  rewrite <- Si in Y'. eapply yields_like; [exact E0|exact Y|exact Y'|]. intros i Hi. cbv beta. rewrite <- Sl. destruct (broadcast_valid _ _ _ _ Es Hi) as [V1 V2]. rewrite Sa, Ta by (try rewrite <- El; assumption). reflexivity.
Qed.
Lemma dot_like x x' y y' pi z : coherent x -> coherent x' -> same x x' -> coherent y -> coherent y' -> same y y' -> (pi = true -> lead x = lead y) -> dot x y pi = Ok z -> succeeds_like z (dot x' y' pi).
Proof.
  intros Hx Hx' (Si & Sl & Sa) Hy Hy' (Ti & Tl & Ta) Hp E.
  assert (Es : simplify (irr x) = simplify (irr y)).
  { destruct (irreps_eqb (simplify (irr x)) (simplify (irr y))) eqn:Q; [apply irreps_eqb_eq, Q|]. rewrite dot_rejects in E; auto; [discriminate|]. intros Q'. rewrite Q', irreps_eqb_refl in Q. discriminate. }
  destruct pi.
  - specialize (Hp eq_refl). pose proof (dot_per_irrep_yields x y Hx Hy Es Hp) as Y. assert (Y' := dot_per_irrep_yields x' y' Hx' Hy' ltac:(congruence) ltac:(congruence)). rewrite <- Si, <- Sl in Y'.
    eapply yields_like; [exact E|exact Y|exact Y'|]. intros i Hi. cbv beta. rewrite Sa, Ta by (try rewrite <- Hp; assumption). reflexivity.
  - destruct (broadcast_shapes (lead x) (lead y)) as [s|] eqn:Eb.
    + pose proof (dot_yields x y s Hx Hy Es Eb) as Y. assert (Y' := dot_yields x' y' s Hx' Hy' ltac:(congruence) ltac:(congruence)). eapply yields_like; [exact E|exact Y|exact Y'|].
      intros i Hi. cbv beta. rewrite <- Sl, <- Tl. destruct (broadcast_valid _ _ _ _ Eb Hi) as [V1 V2]. rewrite Sa, Ta by assumption. reflexivity.
    + exfalso. unfold dot in E. apply bind_Ok in E as (u & Eu & E). apply bind_Ok in E as (v & Ev & E). destruct (simplify_irr x u Hx Eu) as [_ L1]. destruct (simplify_irr y v Hy Ev) as [_ L2]. destruct (negb _); [discriminate|]. rewrite L1, L2, Eb in E. discriminate.
Qed.
Lemma cross_like a a' b b' z : coherent a -> coherent a' -> same a a' -> coherent b -> coherent b' -> same b b' -> cross a b = Ok z -> succeeds_like z (cross a' b').
Proof.
  intros Ha Ha' (Si & Sl & Sa) Hb Hb' (Ti & Tl & Ta) E. pose proof E as E0. unfold cross in E. destruct (existsb _ (irr a)) eqn:Va; [discriminate|]. destruct (existsb _ (irr b)) eqn:Vb; [discriminate|]. destruct (negb _); [discriminate|].
  apply all_vectors_inv in Va, Vb. apply bind_Ok in E as ([c d] & Ea & E). apply bind_Ok in E as (s & Es & E).
  destruct (align_two_irreps (irr a) (irr b)) as [[u v]|] eqn:Al; [|unfold align_two_arrays in Ea; rewrite Al in Ea; discriminate].
  destruct (align_arrays_yields a b u v Ha Hb Al) as (c' & d' & Ea' & _ & _ & La & _ & _ & _ & Lb & _). rewrite Ea in Ea'. injection Ea' as <- <-. rewrite La, Lb in Es.
  pose proof (cross_yields a b u v s Ha Hb Va Vb Al Es) as Y. rewrite Si, Ti in *. rewrite Sl, Tl in Es. pose proof (cross_yields a' b' u v s Ha' Hb' Va Vb Al Es) as Y'.
  eapply yields_like; [exact E0|exact Y|exact Y'|]. intros i Hi. cbv beta. destruct (broadcast_valid _ _ _ _ Es Hi) as [V1 V2]. rewrite Sl, Tl, Sa, Ta by (rewrite ?Sl, ?Tl; assumption). reflexivity.
Qed.
Lemma pow_like x x' n z : coherent x -> coherent x' -> same x x' -> all_even_scalars (irr x) = true -> pow_nat x n = Ok z -> succeeds_like z (pow_nat x' n).
Proof.
  intros H H' (Si & Sl & Sa) Ha E. destruct (pow_nat_even x n H Ha) as [Y _]. rewrite Si in Ha. destruct (pow_nat_even x' n H' Ha) as [Y' _]. rewrite <- Si, <- Sl in Y'. eapply returns_like; [exact E|exact Y|exact Y'|]. intros i Hi. cbv beta. rewrite Sa by exact Hi. reflexivity.
Qed.
Lemma same_nth xs ys : Forall2 same xs ys -> forall k, same (nth k xs dflt_ia) (nth k ys dflt_ia).
Proof. induction 1 as [|x y xs ys Q F IH]; intros [|k]; cbn; auto using same_refl. Qed.
Lemma same_leads xs ys : Forall2 same xs ys -> map lead xs = map lead ys.
Proof. induction 1 as [|x y xs ys (_ & L & _) F IH]; cbn; congruence. Qed.
Lemma same_irrs xs ys : Forall2 same xs ys -> map irr xs = map irr ys.
Proof. induction 1 as [|x y xs ys (L & _ & _) F IH]; cbn; congruence. Qed.
Lemma forallb_lead (f : shape -> bool) xs ys : map lead xs = map lead ys -> forallb (fun x => f (lead x)) xs = forallb (fun x => f (lead x)) ys.
Proof. revert ys. induction xs as [|x xs IH]; intros [|y ys] E; try discriminate; [reflexivity|]. cbn in *. injection E as E1 E2. rewrite E1, (IH ys E2). reflexivity. Qed.
Lemma Forall_lead_irr (P : irreps -> shape -> Prop) xs ys : Forall2 same xs ys -> Forall coherent ys -> Forall (fun y => P (irr y) (lead y)) xs -> Forall (fun y => coherent y /\ P (irr y) (lead y)) ys.
Proof. induction 1 as [|x y xs ys (A & B & _) F IH]; intros C D; inversion C; inversion D; subst; constructor; auto. rewrite <- A, <- B. auto. Qed.
Lemma stack_like xs ys axis z : Forall coherent xs -> Forall coherent ys -> Forall2 same xs ys -> stack xs axis = Ok z -> succeeds_like z (stack ys axis).
Proof.
  intros H H' S E. pose proof E as E0. unfold stack in E. destruct xs as [|x0 xs]; [discriminate|]. apply bind_Ok in E as (k & Ek & E).
  destruct (Nat.eqb_spec k (Datatypes.S (length (lead x0)))) as [|Hk]; [discriminate|].
  destruct (forallb (fun x => shape_eqb (lead x) (lead x0)) (x0 :: xs)) eqn:F; [|discriminate]. cbn [negb] in E. apply assemble_same in E. cbn [hd] in E.
  assert (K : k <= length (lead x0)) by (apply standard_axis_lt in Ek; lia).
  assert (A : Forall (fun y => irr y = irr x0 /\ lead y = lead x0) (x0 :: xs)). { rewrite forallb_forall in F. rewrite Forall_forall in *. intros y Hy. split; [auto|]. apply shape_eqb_eq, F, Hy. }
  pose proof (stack_yields (x0 :: xs) (irr x0) (lead x0) axis k ltac:(discriminate)) as Y. specialize (Y ltac:(rewrite Forall_forall in *; intros y Hy; split; [auto|]; apply A, Hy) Ek K).
  pose proof (stack_yields ys (irr x0) (lead x0) axis k) as Y'. specialize (Y' ltac:(intros ->; inversion S)). specialize (Y' (Forall_lead_irr (fun i l => i = irr x0 /\ l = lead x0) _ _ S H' A) Ek K).
  assert (Ll : length ys = length (x0 :: xs)) by (symmetry; eapply Forall2_length, S). rewrite Ll in Y'. eapply yields_like; [exact E0|exact Y|exact Y'|].
  intros i Hi. cbv beta. destruct (valid_insert_inv _ _ _ _ K Hi) as [V1 V2]. destruct (same_nth _ _ S (nth k i 0)) as (_ & _ & Q). apply Q.
  assert (In (nth (nth k i 0) (x0 :: xs) dflt_ia) (x0 :: xs)) by (apply nth_In, V1). rewrite Forall_forall in A. destruct (A _ H0) as [_ ->]. exact V2.
Qed.
Lemma concatenate_like xs ys axis z : Forall coherent xs -> Forall coherent ys -> Forall2 same xs ys -> concatenate xs axis = Ok z -> succeeds_like z (concatenate ys axis).
Proof.
  intros H H' S E. pose proof E as E0. unfold concatenate in E. destruct xs as [|x0 xs]; [discriminate|]. apply bind_Ok in E as (k & Ek & E).
  assert (Nys : ys <> []) by (intros ->; inversion S).
  destruct (Nat.eqb_spec k (length (lead x0))) as [->|Hk].
  - pose proof E as E1. unfold concat_last in E. destruct (forallb (fun y => shape_eqb (lead y) (lead x0)) (x0 :: xs)) eqn:F; [|discriminate].
    assert (A : Forall (fun y => lead y = lead x0) (x0 :: xs)) by (rewrite forallb_forall in F; rewrite Forall_forall; intros y Hy; apply shape_eqb_eq, F, Hy).
    pose proof (concat_last_yields (lead x0) (x0 :: xs) ltac:(discriminate)) as Y. specialize (Y ltac:(rewrite Forall_forall in *; intros y Hy; auto)).
    pose proof (concat_last_yields (lead x0) ys Nys (Forall_lead_irr (fun _ l => l = lead x0) _ _ S H' A)) as Y'.
    assert (Ei : flat_map irr ys = flat_map irr (x0 :: xs)) by (rewrite !flat_map_concat_map, (same_irrs _ _ S); reflexivity). rewrite Ei in Y'.
    assert (C : concatenate ys axis = concat_last ys).
    { destruct ys as [|y0 ys]; [contradiction|]. unfold concatenate. inversion S as [|? ? ? ? (_ & L0 & _)]; subst. rewrite <- L0, Ek. cbn [bind]. rewrite Nat.eqb_refl. reflexivity. }
    rewrite C. eapply yields_like; [exact E1|exact Y|exact Y'|]. intros i Hi. cbv beta. clear -S A Hi.
    assert (G : forall s us vs, valid s i -> Forall2 same us vs -> Forall (fun y => lead y = s) us -> flat_map (fun y => arr y i) us = flat_map (fun y => arr y i) vs); [|apply (G (lead x0)); assumption].
    clear. intros s us vs Hs S. induction S as [|x y xs ys (_ & _ & Q) F IH]; intros A; [reflexivity|]. inversion A as [|? ? A1 A2]; subst. cbn [flat_map]. rewrite Q by exact Hs. f_equal. apply IH; assumption.
  - apply standard_axis_lt in Ek as Hlt. destruct (forallb _ (x0 :: xs)) eqn:F; [|discriminate]. cbn [negb] in E. apply assemble_same in E. cbn [hd] in E.
    destruct (length (lead x0)) as [|n] eqn:Ln; [lia|]. assert (Lr : length (remove_at k (lead x0)) = n) by (apply remove_at_length; lia).
    assert (A : Forall (fun y => irr y = irr x0 /\ length (lead y) = Datatypes.S (length (remove_at k (lead x0))) /\ remove_at k (lead y) = remove_at k (lead x0)) (x0 :: xs)).
    { rewrite forallb_forall in F. rewrite Forall_forall in *. intros y Hy. specialize (F y Hy). apply andb_true_iff in F as [F1 F2]. apply shape_eqb_eq in F1. apply Nat.eqb_eq in F2. split; [auto|]. split; [lia|exact F1]. }
    rewrite <- Lr in Ek. assert (K : k <= length (remove_at k (lead x0))) by lia.
    pose proof (concatenate_yields (x0 :: xs) (irr x0) (remove_at k (lead x0)) axis k ltac:(discriminate)) as Y. specialize (Y ltac:(rewrite Forall_forall in *; intros y Hy; split; [auto|]; apply A, Hy) Ek K).
    pose proof (concatenate_yields ys (irr x0) (remove_at k (lead x0)) axis k Nys (Forall_lead_irr (fun i l => i = irr x0 /\ length l = Datatypes.S (length (remove_at k (lead x0))) /\ remove_at k l = remove_at k (lead x0)) _ _ S H' A) Ek K) as Y'.
    assert (Es : sizes_at k ys = sizes_at k (x0 :: xs)). { unfold sizes_at. rewrite <- (map_map lead (fun s => nth k s 0)), <- (same_leads _ _ S), map_map. reflexivity. }
    rewrite Es in Y'. eapply yields_like; [exact E0|exact Y|exact Y'|]. intros i Hi. cbv beta. destruct (locate (sizes_at k (x0 :: xs)) (nth k i 0)) as [a q] eqn:El.
    destruct (valid_insert_inv _ _ _ _ K Hi) as [V1 V2]. destruct (locate_spec _ _ _ _ El V1) as (P1 & P2 & _). unfold sizes_at in P1. rewrite map_length in P1.
    destruct (same_nth _ _ S a) as (_ & _ & Q). apply Q. set (y := nth a (x0 :: xs) dflt_ia) in *. assert (Iy : In y (x0 :: xs)) by (apply nth_In, P1). rewrite Forall_forall in A. destruct (A y Iy) as (_ & Ly & Ry).
    assert (Qn : nth a (sizes_at k (x0 :: xs)) 0 = nth k (lead y) 0). { unfold sizes_at. rewrite (nth_indep _ 0 (nth k (lead dflt_ia) 0)) by (rewrite map_length; exact P1). exact (map_nth (fun x => nth k (lead x) 0) (x0 :: xs) dflt_ia a). }
    rewrite Qn in P2.
    assert (Li : length i = length (lead y)). { apply Forall2_length in Hi. unfold insert_at in Hi. rewrite Hi, Ly, app_length, firstn_length, Nat.min_l by lia. cbn [length]. rewrite skipn_length. lia. }
    assert (Er : replace_at k q i = insert_at k q (remove_at k i)).
    { unfold replace_at, insert_at, remove_at. rewrite firstn_app, firstn_firstn, Nat.min_id. rewrite firstn_length, (Nat.min_l k (length i)) by lia. rewrite Nat.sub_diag. cbn [firstn]. rewrite app_nil_r. f_equal. f_equal.
      rewrite skipn_app, firstn_length, (Nat.min_l k (length i)) by lia. rewrite Nat.sub_diag, (skipn_all2 (firstn k i)) by (rewrite firstn_length; lia). reflexivity. }
    rewrite Er. rewrite <- (insert_remove k (lead y) 0) by lia. rewrite Ry. apply valid_insert; [exact K|exact V2|exact P2].
Qed.

(* ---------- whole programs ---------- *)
(* the calls whose outcome does depend on flags (see the refutations in ArrayProps.v) *)
Definition flag_safe (pool : list iarray) (o : operation) : Prop :=
  match o with
  | RemoveZeroChunks _ => False
  | SliceByMul k sl => forall x a b st, nth_error pool k = Some x -> slice_indices sl (num_irreps (irr x)) = Ok (a, b, st) -> ~ cuts_zero_chunk x (Z.to_nat a) (Z.to_nat b)
  | MulToAxis k _ axis => forall x, nth_error pool k = Some x -> standard_axis axis (S (S (length (lead x)))) = Ok (length (lead x))
  | Dot j k true => forall x y, nth_error pool j = Some x -> nth_error pool k = Some y -> lead x = lead y
  | Pow k _ => forall x, nth_error pool k = Some x -> all_even_scalars (irr x) = true
  | _ => True
  end.
Definition alike (x x' : iarray) : Prop := coherent x /\ coherent x' /\ same x x'.
Lemma alike_nth pool pool' k x : Forall2 alike pool pool' -> nth_error pool k = Some x -> exists x', nth_error pool' k = Some x' /\ alike x x'.
Proof. intros F. revert k. induction F as [|a b l l' Q F IH]; intros [|k] E; try discriminate; cbn in *; [injection E as <-; eauto|auto]. Qed.
Lemma alike_get_all pool pool' : Forall2 alike pool pool' -> forall ks xs, get_all pool ks = Ok xs -> exists xs', get_all pool' ks = Ok xs' /\ Forall2 alike xs xs'.
Proof.
  intros F. unfold get_all. induction ks as [|k ks IH]; intros xs E; cbn [mapM] in *; [injection E as <-; exists []; split; [reflexivity|constructor]|].
  apply bind_Ok in E as (x & Ex & E). apply bind_Ok in E as (l & El & E). injection E as <-. apply get_nth in Ex. destruct (alike_nth _ _ _ _ F Ex) as (x' & Ex' & A). destruct (IH _ El) as (l' & El' & A').
  exists (x' :: l'). assert (Eg : get pool' k = Ok x') by (unfold get; rewrite Ex'; reflexivity). rewrite Eg. cbn [bind]. rewrite El'. split; [reflexivity|constructor; assumption].
Qed.
Lemma alike_parts xs xs' : Forall2 alike xs xs' -> Forall coherent xs /\ Forall coherent xs' /\ Forall2 same xs xs'.
Proof. induction 1 as [|x y l l' (A & B & C) F (IH1 & IH2 & IH3)]; repeat split; try constructor; auto. Qed.
Lemma like_fuel z r : (exists z', r = Some (Ok z') /\ same z z') -> succeeds_like z (out_of_fuel r).
Proof. intros (z' & -> & Q). exists z'. split; [reflexivity|exact Q]. Qed.
(* one call: it succeeds on both pools or on neither, with the same visible result *)
Theorem run_like pool pool' o z : Forall2 alike pool pool' -> proper_args o -> benign pool o -> flag_safe pool o -> flag_safe pool' o ->
  run pool o = Ok z -> succeeds_like z (run pool' o).
Proof.
  intros P A B FS FS' E.
  assert (U : forall k f, un pool k f = Ok z -> exists x x', nth_error pool k = Some x /\ nth_error pool' k = Some x' /\ coherent x /\ coherent x' /\ same x x' /\ f x = Ok z).
  { intros k f Q. apply bind_Ok in Q as (x & Ex & Q). apply get_nth in Ex. destruct (alike_nth _ _ _ _ P Ex) as (x' & Ex' & C & C' & Sx). exists x, x'. repeat (split; [assumption|]). exact Q. }
  assert (U' : forall k f x', nth_error pool' k = Some x' -> un pool' k f = f x') by (intros k f x' Ex; unfold un, get; rewrite Ex; reflexivity).
  assert (V : forall j k f, bin pool j k f = Ok z -> exists x x' y y', nth_error pool j = Some x /\ nth_error pool' j = Some x' /\ nth_error pool k = Some y /\ nth_error pool' k = Some y' /\
      coherent x /\ coherent x' /\ same x x' /\ coherent y /\ coherent y' /\ same y y' /\ f x y = Ok z).
  { intros j k f Q. apply bind_Ok in Q as (x & Ex & Q). apply bind_Ok in Q as (y & Ey & Q). apply get_nth in Ex, Ey.
    destruct (alike_nth _ _ _ _ P Ex) as (x' & Ex' & C & C' & Sx). destruct (alike_nth _ _ _ _ P Ey) as (y' & Ey' & D & D' & Sy). exists x, x', y, y'. repeat (split; [assumption|]). exact Q. }
  assert (V' : forall j k f x' y', nth_error pool' j = Some x' -> nth_error pool' k = Some y' -> bin pool' j k f = f x' y') by (intros j k f x' y' Ex Ey; unfold bin, get; rewrite Ex, Ey; reflexivity).
  destruct o; cbn [run proper_args benign flag_safe] in *;
    match type of E with un _ _ _ = _ => apply U in E as (x0 & x0' & Nx & Nx' & Cx & Cx' & Sx & E); rewrite (U' _ _ _ Nx')
      | bin _ _ _ _ = _ => apply V in E as (x0 & x0' & y0 & y0' & Nx & Nx' & Ny & Ny' & Cx & Cx' & Sx & Cy & Cy' & Sy & E); rewrite (V' _ _ _ _ _ Nx' Ny') | _ => idtac end.
  - exists z. split; [exact E|apply same_refl].
  - exists z. split; [exact E|apply same_refl].
  - exists z. split; [exact E|apply same_refl].
  - exists z. split; [exact E|apply same_refl].
  - apply (force_like x0 x0' Sx z E).
  - apply (pytree_like x0 x0' Cx Cx' Sx z E).
  - apply (neg_like x0 x0' Cx Cx' Sx z E).
  - apply (add_like x0 x0' y0 y0'); assumption.
  - apply (sub_like x0 x0' y0 y0'); assumption.
  - apply (bare_like x0 x0' Cx Cx' Sx Rplus _ _ _ _ A E).
  - apply (bare_like x0 x0' Cx Cx' Sx Rminus _ _ _ _ A E).
  - refine (scale_like x0 x0' Cx Cx' Sx Rmult _ _ _ _ E). intros; apply Rmult_0_l.
  - refine (scale_like x0 x0' Cx Cx' Sx Rdiv _ _ _ _ E). intros; apply Rmult_0_l.
  - apply (pow_like x0 x0'); auto.
  - apply (rechunk_like x0 x0' Cx Cx' Sx _ _ E).
  - apply (rechunk_like x0 x0' Cx Cx' Sx (simplify (irr x0))) in E. unfold ia_simplify. destruct Sx as (<- & _). exact E.
  - apply (rechunk_like x0 x0' Cx Cx' Sx (unify (irr x0))) in E. unfold ia_unify. destruct Sx as (<- & _). exact E.
  - apply (sort_like x0 x0' Cx Cx' Sx _ E).
  - apply (regroup_like x0 x0' Cx Cx' Sx _ E).
  - contradiction.
  - apply (filter_like x0 x0' Cx Cx' Sx _ _ _ _ E).
  - apply (extend_like x0 x0' Cx Cx' Sx _ _ E).
  - refine (slice_by_mul_like x0 x0' Cx Cx' Sx _ _ _ E). intros a b st Q. apply (FS' _ _ _ st Nx'). destruct Sx as (<- & _). exact Q.
  - apply (slice_by_chunk_like x0 x0' Cx Cx' Sx _ _ E).
  - apply (getitem_irreps_like x0 x0' Cx Cx' Sx _ _ E).
  - apply fuel_Ok in E. apply like_fuel, (ia_getslice_like x0 x0'); assumption.
  - apply fuel_Ok in E. destruct B as [B1 B2]. apply like_fuel, (index_like x0 x0'); auto.
  - apply (reshape_like x0 x0'); assumption.
  - apply (broadcast_to_like x0 x0'); assumption.
  - apply (at_set_zero_like x0 x0'); assumption.
  - refine (at_update_like _ x0 x0' _ y0 y0' z Cx Cx' Sx Cy Cy' Sy _ E). left; reflexivity.
  - refine (at_update_like _ x0 x0' _ y0 y0' z Cx Cx' Sx Cy Cy' Sy _ E). right; reflexivity.
  - apply (reduce_like _ x0 x0'); assumption.
  - apply bind_Ok in E as (xs & Ex & E). destruct (alike_get_all _ _ P _ _ Ex) as (xs' & -> & Q). cbn [bind]. destruct (alike_parts _ _ Q) as (Q1 & Q2 & Q3). apply (concatenate_like xs xs'); assumption.
  - apply bind_Ok in E as (xs & Ex & E). destruct (alike_get_all _ _ P _ _ Ex) as (xs' & -> & Q). cbn [bind]. destruct (alike_parts _ _ Q) as (Q1 & Q2 & Q3). apply (stack_like xs xs'); assumption.
  - apply (where_like _ _ x0 x0' y0 y0'); assumption.
  - apply (mul_to_axis_like x0 x0'); auto.
  - apply (axis_to_mul_like x0 x0'); assumption.
  - apply (axis_to_irreps_like x0 x0'); assumption.
  - apply (norm_like x0 x0'); assumption.
  - apply (dot_like x0 x0' y0 y0'); auto. intros ->. eapply FS; eassumption.
  - apply (cross_like x0 x0' y0 y0'); assumption.
  - apply (transform_like _ x0 x0'); assumption.
Qed.

(* straight-line programs: each call appends its result to the pool *)
Fixpoint exec (pool : list iarray) (prog : list operation) : res (list iarray) :=
  match prog with
  | [] => Ok pool
  | o :: prog => let! z := run pool o in exec (pool ++ [z]) prog
  end.
(* every call made from here on is a proper, benign and flag-safe one *)
Fixpoint safe (pool : list iarray) (prog : list operation) : Prop :=
  match prog with
  | [] => True
  | o :: prog => proper_args o /\ benign pool o /\ flag_safe pool o /\ forall z, run pool o = Ok z -> safe (pool ++ [z]) prog
  end.
Theorem exec_like prog : forall pool pool' final, Forall2 alike pool pool' -> safe pool prog -> safe pool' prog -> exec pool prog = Ok final ->
  exists final', exec pool' prog = Ok final' /\ Forall2 alike final final'.
Proof.
  induction prog as [|o prog IH]; intros pool pool' final P S S' E; cbn [exec safe] in *; [injection E as <-; eauto|].
  destruct S as (A & B & F & K). destruct S' as (A' & B' & F' & K'). apply bind_Ok in E as (z & Ez & E). destruct (run_like pool pool' o z P A B F F' Ez) as (z' & Ez' & Sz). rewrite Ez'. cbn [bind].
  destruct (alike_parts _ _ P) as (C1 & C2 & _). refine (IH _ _ _ _ (K z Ez) (K' z' Ez') E). apply Forall2_app; [exact P|]. constructor; [|constructor].
  split; [|split; [|exact Sz]]; [eapply run_coherent; [exact C1|exact A|exact B|exact Ez]|eapply run_coherent; [exact C2|exact A'|exact B'|exact Ez']].
Qed.
