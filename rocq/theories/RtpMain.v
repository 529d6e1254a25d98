(* _reduced_tensor_product_basis: the merging loop and the recursion. *)
From Coq Require Import Reals Lra Lia List Arith Permutation Sorted ZArith.
From Verif Require Import PyBase PermModel PermProofs IrrepsModel IrrepsProofs IrrepsProofs2 ArrayModel ArrayProofs ArrayOps RechunkProofs LeadModel LeadProofs StackProofs ActProofs EquivProofs EntryProofs LinearProofs ScatterProps SumR S2Proofs3 TPModel TPProofs TPProofs2 RotationModel RotationProofs CGModel WignerModel WignerProofs WignerProofs2 WignerProps WignerProps2 CGComplete MathModel GSProofs BasisProofs MathProps2 BasisProofs2 SymModel SymProofs SymProofs2 SymProps3 SchurProofs MultProofs CouplingProofs ReducedProofs ConstrainProofs RtpModel RtpSpace RtpTools RtpArr RtpConstrain RtpConstrain2 RtpMasks RtpPerm.
Import ListNotations.
Open Scope R_scope.

(* ---------- lists ---------- *)
Lemma split_pair {T} (l : list T) d i j : (i < j < length l)%nat -> exists l1 l2 l3, l = l1 ++ nth i l d :: l2 ++ nth j l d :: l3 /\ remove_at i (remove_at j l) = l1 ++ l2 ++ l3.
Proof.
  intros [Hi Hj]. destruct (nth_split l d Hj) as (p & l3 & E & Lp). destruct (nth_split p d (n := i) ltac:(lia)) as (l1 & l2 & E' & L1).
  assert (Ni : nth i l d = nth i p d) by (rewrite E at 1; apply app_nth1; lia). exists l1, l2, l3. split.
  - rewrite Ni. rewrite E at 1. rewrite E' at 1. rewrite <- app_assoc. reflexivity.
  - assert (R : remove_at j l = p ++ l3).
    { unfold remove_at. rewrite E at 1 2. rewrite (firstn_length_app p _ j Lp). f_equal. replace (S j) with (length (p ++ [nth j l d])) by (rewrite app_length, Lp; cbn; lia). change (nth j l d :: l3) with ([nth j l d] ++ l3). rewrite app_assoc. apply skipn_length_app. reflexivity. }
    rewrite R. unfold remove_at. rewrite E' at 1 2. rewrite <- !app_assoc. rewrite (firstn_length_app l1 _ i L1). f_equal. cbn [app]. replace (S i) with (length (l1 ++ [nth i p d])) by (rewrite app_length, L1; cbn; lia). change (nth i p d :: l2 ++ l3) with ([nth i p d] ++ l2 ++ l3). rewrite (app_assoc l1). apply skipn_length_app. reflexivity.
Qed.
Lemma first_min_in {T} (l : list (nat * T)) : l <> [] -> exists c, In c l /\ first_min l = Some (snd c).
Proof.
  intros N. unfold first_min. destruct l as [|a l]; [contradiction|]. cbn [fold_left]. assert (G : forall (l : list (nat * T)) (b : nat * T), exists c, (c = b \/ In c l) /\ fold_left (fun (best : option (nat * T)) (c : nat * T) => match best with None => Some c | Some b => if (fst c <? fst b)%nat then Some c else best end) l (Some b) = Some c).
  { clear. induction l as [|a l IH]; intros b; [exists b; auto|]. cbn [fold_left]. destruct (fst a <? fst b)%nat; [destruct (IH a) as (c & [-> |H] & E)|destruct (IH b) as (c & [-> |H] & E)]; eexists; (split; [|exact E]); cbn; auto. }
  destruct (G l a) as (c & H & E). exists c. split; [cbn; destruct H; auto|]. rewrite E. reflexivity.
Qed.
Lemma index_pairs_in n i j : In (i, j) (index_pairs n) <-> (i < j < n)%nat.
Proof.
  unfold index_pairs. rewrite in_flat_map. split.
  - intros (k & Hk & H). apply in_map_iff in H as (q & E & Hq). injection E as <- <-. apply in_seq in Hk, Hq. lia.
  - intros H. exists i. split; [apply in_seq; lia|]. apply in_map_iff. exists j. split; [reflexivity|apply in_seq; lia].
Qed.
Lemma prod_pos l : Forall (fun d => (0 < d)%nat) l -> (0 < prod l)%nat.
Proof. induction 1 as [|d l H F IH]; [cbn; lia|]. rewrite prod_cons. apply Nat.mul_pos_pos; assumption. Qed.
Lemma prod_select_le m l : Forall (fun d => (0 < d)%nat) l -> (prod (select m l) <= prod l)%nat.
Proof.
  intros F. revert m. induction F as [|d l H F IH]; intros m; [destruct m; cbn; lia|]. destruct m as [|b m]; cbn [select].
  - change (prod []) with 1%nat. apply (prod_pos (d :: l)). constructor; assumption.
  - destruct b; rewrite !prod_cons; [apply Nat.mul_le_mono_l, IH|]. specialize (IH m). nia.
Qed.

Lemma reach_none ls c : reach c (mk (map negb (repeat true (length ls))) ls) c.
Proof.
  induction ls as [|x ls IH]; [reflexivity|]. cbn [length repeat map mk negb reach]. exists e0, c. split; [left; reflexivity|]. split; [|exact IH]. apply ir_mul_in. cbn [e0 ir_l ir_p]. split; [destruct (ir_p c); reflexivity|lia].
Qed.
Section Main.
Variables (eigh : list (list R) -> list R * list (list R)) (eps : R).
Hypothesis Ev : forall d b1 b2, of_width d b1 -> of_width d b2 -> eigen_ok (length b1 + length b2) (overlap b1 b2) (fst (eigh (overlap b1 b2))) (snd (eigh (overlap b1 b2))).
Hypothesis E1 : 0 < eps <= 1.

Definition admissible (g : list signed) (irs : list irreps) : Prop := length g = 1%nat \/ (Forall (fun x => (0 < dim x)%nat) irs /\ 4 * INR (prod (map dim irs)) * (eps * eps) < 1).
Record input_ok (irs : list irreps) (g : list signed) : Prop := {
  in_group : signed_group (length irs) g;
  in_nodup : NoDup g;
  in_comp : compatible g irs;
  in_adm : admissible g irs;
  in_one : length irs = 1%nat -> length g = 1%nat;
  in_ne : irs <> [] }.
Definition found (irs : list irreps) (g : list signed) (keep : option (list irrep)) (b : iarray) : Prop := good (flats irs) (fun c => passes keep c = true) (symmetric_under g irs) b.
Definition result (irs : list irreps) (g : list signed) (keep : option (list irrep)) (b : iarray) : Prop := found irs g keep b /\ exists x, irr b = regroup_irreps x.

Section Level.
Variables (irs : list irreps) (g : list signed) (keep : option (list irrep)).
Hypothesis In_ok : input_ok irs g.
Let n := length irs.
Let ls := flats irs.
Let Gg : signed_group n g := in_group _ _ In_ok.
Let Co : compatible g irs := in_comp _ _ In_ok.
Variable rec : list irreps -> list signed -> option (list irrep) -> res iarray.
Hypothesis Rec : forall irs' g' keep', (2 <= length irs' < n)%nat -> (forall x, In x irs' -> In x irs) -> (length g = 1%nat -> length g' = 1%nat) -> input_ok irs' g' -> exists b, rec irs' g' keep' = Ok b /\ result irs' g' keep' b.

Definition basis_ok (fb : basis) : Prop := iset n (fst fb) /\ fst fb <> [] /\ exists K W, good (mk (maskof n (fst fb)) ls) K W (snd fb) /\
  (forall a c, passes keep a = true -> reach a (mk (map negb (maskof n (fst fb))) ls) c -> K c) /\
  (forall T o, symmetric_under g irs T -> In o (space (mk (map negb (maskof n (fst fb))) ls)) -> W (fun a => T (joinz (maskof n (fst fb)) a o))) /\
  (length g = 1%nat -> forall f, W f).
Definition bases_ok (bases : list basis) : Prop := Forall basis_ok bases /\ Permutation (concat (map fst bases)) (seq 0 n).

Lemma good_iff K K' W W' b : (forall c, K c <-> K' c) -> (forall f, W f <-> W' f) -> subspace (space ls) W' -> good ls K W b -> good ls K' W' b.
Proof. intros HK HW SW' (C & L & SW & HR). split; [exact C|]. split; [exact L|]. split; [exact SW'|]. apply (reduced_keep_iff _ _ K K' W' _ HK). apply (reduced_weaken _ _ K W W' _ HW). exact HR. Qed.
Lemma SWsym : subspace (space ls) (symmetric_under g irs). Proof. apply (symmetric_subspace g irs Gg Co). Qed.
Lemma Lls : length ls = n. Proof. apply flats_length. Qed.
Lemma iset_full f : iset n f -> Permutation f (seq 0 n) -> f = seq 0 n.
Proof. intros Hf P. rewrite Hf. rewrite (iset_seq n) at 2. apply filter_ext. intros i. apply Bool.eq_true_iff_eq. rewrite !inb_iff. split; intros H; [exact (Permutation_in _ P H)|exact (Permutation_in _ (Permutation_sym P) H)]. Qed.
(* regroup at the end *)
Lemma finish b : found irs g keep b -> exists y, ia_regroup b = Ok y /\ result irs g keep y.
Proof. intros H. destruct (good_regroup _ _ _ _ H) as (y & E & Ir & Q). exists y. split; [exact E|]. split; [exact Q|]. exists (irr b). exact Ir. Qed.
Lemma rounded b : result irs g keep b -> exists y, rounding (fun v => v) b = Ok y /\ result irs g keep y.
Proof.
  intros [(C & L & SW & HR) Cn]. unfold rounding. rewrite mkIA_ok by (try exact Logic.I; reflexivity). eexists. split; [reflexivity|]. split; [|exact Cn]. split; [|split; [exact L|split; [exact SW|]]].
  - unfold coherent. cbn [irr lead arr chs]. unfold zero_flags. cbn [zf chs]. split; [|split; [apply no_flags|exact Logic.I]]. intros z Hz. rewrite map_length. apply C, Hz.
  - refine (reduced_sames _ _ _ _ (family b) _ SW _ HR). unfold family. cbn [irr arr]. apply plets_ext. intros z _. symmetry. apply map_id.
Qed.
Lemma keep_step K W b : good ls K W b -> (forall c, passes keep c = true -> K c) -> exists y, (match keep with None => Ok b | Some l => ia_filter b (Some (ByIrreps l)) None None end) = Ok y /\ good ls (fun c => passes keep c = true) W y.
Proof.
  intros (Cb & Lb & SW & HR) Kp. destruct keep as [l|].
  - unfold space in *. rewrite <- Lb in *. destruct (filter_reduced (rho ls) K W b l ltac:(rewrite Lb; apply space_preserving) Cb SW HR) as (y & Ey & Iy & Ly & Cy & Ry). exists y. split; [exact Ey|]. unfold good, space. rewrite <- Lb. split; [exact Cy|]. split; [exact Ly|]. split; [exact SW|]. refine (reduced_keep_iff _ _ _ _ _ _ _ Ry). intros c. cbn [passes] in *. split; [intros [_ Q]; exact Q|intros Q; split; [apply Kp; exact Q|exact Q]].
  - exists b. split; [reflexivity|]. unfold good. split; [exact Cb|]. split; [exact Lb|]. split; [exact SW|]. refine (reduced_keep_iff _ _ _ _ _ _ _ HR). intros c. split; [reflexivity|exact (Kp c)].
Qed.
(* ---------- one basis ---------- *)
Lemma loop_one steps fb : bases_ok [fb] -> length g = 1%nat -> exists y, rtp_loop eigh eps (fun v => v) steps rec irs g keep [fb] = Ok y /\ result irs g keep y.
Proof.
  intros [F P] L1. inversion F as [|? ? (Sf & Nf & K & W & G & HK & _ & HW) _]. subst. destruct fb as [f b]. cbn [fst snd map concat] in *. rewrite app_nil_r in P. pose proof (iset_full f Sf P) as ->.
  assert (Mk : mk (maskof n (seq 0 n)) ls = ls) by (rewrite mask_seq, <- Lls; apply mk_all). rewrite Mk in G.
  assert (Kp : forall c, passes keep c = true -> K c).
  { intros c Hc. apply (HK c c Hc). rewrite mask_seq, <- Lls. apply reach_none. }
  assert (WW : forall f, W f <-> symmetric_under g irs f) by (intros f; split; intros _; [apply (symmetric_trivial g irs Gg Co); [apply (in_nodup _ _ In_ok)|exact L1]|apply HW, L1]).
  destruct (keep_step K W b G Kp) as (y & Ey & Gy). destruct (finish y) as (y' & Ey' & Ry'); [apply (good_iff (fun c => passes keep c = true) _ W); [intros c; reflexivity|exact WW|exact SWsym|exact Gy]|].
  exists y'. split; [|exact Ry']. destruct steps as [|steps]; cbn [rtp_loop]; fold n; rewrite (assert_ok (list_eqb (seq 0 n) (seq 0 n))) by (apply list_eqb_eq; reflexivity); cbn [bind]; rewrite Ey; exact Ey'.
Qed.

(* ---------- two bases ---------- *)
Lemma joinz_swap m a b : length a = length m -> length b = length m -> joinz (map negb m) b a = joinz m a b.
Proof. revert a b. induction m as [|c m IH]; intros [|x a] [|y b] La Lb; try discriminate; [reflexivity|]. injection La as La. injection Lb as Lb. cbn [map joinz]. rewrite IH by assumption. destruct c; reflexivity. Qed.
Lemma same_length h : NoDup h -> (forall s p, In (s, p) h <-> In (s, p) g) -> length h = length g.
Proof. intros N H. apply Permutation_length, NoDup_Permutation; [exact N|apply (in_nodup _ _ In_ok)|]. intros [s p]. apply H. Qed.
Lemma loop_two steps fa a fb b : bases_ok [(fa, a); (fb, b)] -> exists y, rtp_loop eigh eps (fun v => v) steps rec irs g keep [(fa, a); (fb, b)] = Ok y /\ result irs g keep y.
Proof.
  intros [F P]. inversion F as [|? ? (Sa & Na & Ka & Wa & Ga & Ka1 & Wa1 & Wa2) F']. subst. inversion F' as [|? ? (Sb & Nb & Kb & Wb & Gb & Kb1 & Wb1 & Wb2) _]. subst. clear F F'. cbn [fst snd map concat] in *. rewrite app_nil_r in P.
  assert (Nd : NoDup (fa ++ fb)) by (apply (Permutation_NoDup (Permutation_sym P)), seq_NoDup).
  assert (Dj : forall i, In i fa -> ~ In i fb) by (intros i Hi Hj; clear -Nd Hi Hj; induction fa as [|c l IH]; [contradiction|]; cbn [app] in Nd; inversion Nd; subst; destruct Hi as [-> |Hi]; [apply H1, in_or_app; right; exact Hj|apply IH; assumption]).
  assert (Cv : forall i, (i < n)%nat -> In i fa \/ In i fb) by (intros i Hi; apply in_app_or, (Permutation_in _ (Permutation_sym P)), in_seq; lia).
  assert (Ef : set_union n fa fb = seq 0 n) by (apply iset_full; [apply iset_union|]; eapply Permutation_trans; [apply union_perm; assumption|exact P]).
  set (ma := maskof n fa) in *. set (mb := maskof n fb) in *. assert (Emb : mb = map negb ma) by (apply mask_negb; intros i Hi; specialize (Cv i Hi); specialize (Dj i); tauto). assert (Ema : ma = map negb mb) by (apply mask_negb; intros i Hi; specialize (Cv i Hi); specialize (Dj i); tauto).
  assert (Lma : length ma = n) by apply maskof_length. assert (Lmb : length mb = n) by apply maskof_length.
  pose proof (mask_union n fa fb Dj) as DM. fold ma mb in DM. rewrite Ef, mask_seq in DM. rewrite <- Emb in Ka1, Wa1. rewrite <- Ema in Kb1, Wb1.
  assert (LL : length ls = length (repeat true n)) by (rewrite repeat_length; apply Lls).
  destruct (product_step keep ma mb (repeat true n) ls Ka Wa a Kb Wb b DM LL Ga Gb Ka1 Kb1) as (ab & Eab & Pab & Gab). assert (Mk : mk (repeat true n) ls = ls) by (rewrite <- Lls; apply mk_all). rewrite Mk in Gab.
  set (W0 := both (space (mk ma ls)) (space (mk mb ls)) (joinz ma) Wa Wb) in *.
  assert (Len : forall m z, length m = n -> In z (space (mk m ls)) -> length z = n) by (intros m z Lm Hz; apply in_valid, valid_length in Hz; rewrite Hz, tdims_length, mk_length; [exact Lm|rewrite Lm; apply Lls]).
  assert (Sub : forall T, symmetric_under g irs T -> W0 T).
  { intros T HT. split; intros o Ho; [apply Wa1; assumption|]. destruct Gb as (_ & _ & SWb & _). apply (sub_ext _ _ SWb (fun x => T (joinz mb x o))); [|apply Wb1; assumption]. intros x Hx. f_equal. rewrite Emb. apply joinz_swap; [apply (Len ma) in Ho; congruence|apply (Len mb) in Hx; congruence]. }
  destruct (whole_group g irs Gg) as (h & Eh & Nh & Gh & Hh). fold n in Eh, Gh. pose proof (same_length h Nh Hh) as Lh.
  assert (EL : forall steps, rtp_loop eigh eps (fun v => v) steps rec irs g keep [(fa, a); (fb, b)] = (let! ab := Ok ab in let! h := Ok h in if (length h =? 1)%nat then ia_regroup ab else let! p := reduce_subgroup_permutation (seq 0 n) g (map dim irs) in let! ab := constrain eigh eps ab (masked (seq 0 n) (map dim irs)) p in let! ab := ia_regroup ab in rounding (fun v => v) ab)).
  { intros k. destruct k as [|k]; cbn [rtp_loop]; fold n; rewrite Ef, Eab, Eh; reflexivity. }
  rewrite EL. cbn [bind]. clear EL. destruct (Nat.eqb_spec (length h) 1) as [L1|L1].
  - apply finish. refine (good_iff _ _ W0 _ _ _ _ SWsym Gab); [reflexivity|]. intros T. split; intros _; [apply (symmetric_trivial g irs Gg Co); [apply (in_nodup _ _ In_ok)|congruence]|]. split; intros o _; [apply Wa2|apply Wb2]; congruence.
  - destruct (in_adm _ _ In_ok) as [Q|[Pos Small]]; [congruence|]. destruct (whole_rows g irs Gg Co h Eh L1 Pos) as (Sp & ESp & OS & WS). fold n in ESp. rewrite ESp. cbn [bind].
    assert (Em : masked (seq 0 n) (map dim irs) = tdims ls) by (rewrite masked_mk; fold n; rewrite mask_seq; fold (flats irs); fold ls; rewrite Mk; reflexivity). rewrite Em. destruct Gab as (Cab & Lab & SW0 & Rab).
    destruct (constrain_step ab (tdims ls) (rho ls) (fun c => passes keep c = true) (symmetric_under g irs) W0 Sp Cab Lab Pab (space_preserving ls) (space_adjoint ls) OS WS (fun r f _ Hf => symmetric_rot g irs Gg Co r f Hf) SW0 Rab Sub eigh eps (Ev _) E1) as (y & Ey & Cy & Ly & Ry).
    { rewrite all_idx_length. unfold ls. rewrite tdims_flats. exact Small. }
    rewrite Ey. cbn [bind]. destruct (finish y) as (y1 & Ey1 & Ry1); [split; [exact Cy|]; split; [exact Ly|]; split; [exact SWsym|exact Ry]|]. rewrite Ey1. cbn [bind]. apply rounded, Ry1.
Qed.

(* ---------- a merging step ---------- *)
Lemma picked_dims f : picked f (map dim irs) 0%nat = map dim (picked f irs []).
Proof. unfold picked. rewrite map_map. apply map_ext. intros i. rewrite <- (map_nth dim). reflexivity. Qed.
Lemma dim_ok f : iset n f -> exists d, subgroup_dim f g (map dim irs) = Ok d.
Proof.
  intros Sf. destruct (sub_group g irs f Gg Sf) as (h & E & _). unfold subgroup_dim. rewrite E. cbn [bind]. destruct (length h =? 1)%nat; [eexists; reflexivity|]. destruct (sub_spec g irs f Gg Sf h E) as (_ & G & _). rewrite picked_dims.
  destruct (reduction_basis (length (picked f irs [])) h (map dim (picked f irs [])) G (map_length _ _)) as (base & Eb & _); [intros s p Hp; exact (compatible_dims h _ G (sub_compatible g irs f Gg Co Sf h E) s p Hp)|]. rewrite Eb. eexists. reflexivity.
Qed.
Lemma sub_input f h : iset n f -> (2 <= length f)%nat -> subrepr_permutation f g = Ok h -> input_ok (picked f irs []) h.
Proof.
  intros Sf L2 E. destruct (sub_spec g irs f Gg Sf h E) as (Nh & G & _). assert (Lp : length (picked f irs []) = length f) by apply map_length. constructor.
  - exact G.
  - exact Nh.
  - exact (sub_compatible g irs f Gg Co Sf h E).
  - destruct (in_adm _ _ In_ok) as [Q|[Pos Small]]; [left; exact (sub_trivial g irs f Gg Co Sf h E Q)|right]. split.
    + apply Forall_forall. intros x Hx. apply in_map_iff in Hx as (i & <- & Hi). rewrite Forall_forall in Pos. apply Pos, nth_In. exact (iset_in n f i Sf Hi).
    + eapply Rle_lt_trans; [|exact Small]. apply Rmult_le_compat_r; [nra|]. apply Rmult_le_compat_l; [lra|]. apply le_INR. rewrite picked_select by exact Sf. fold n. rewrite <- select_map. apply prod_select_le. apply Forall_map. exact Pos.
  - rewrite Lp. lia.
  - intros Q. rewrite Q in Lp. cbn in Lp. lia.
Qed.
Lemma merged f h : iset n f -> (2 <= length f < n)%nat -> subrepr_permutation f g = Ok h -> exists b y, rec (picked f irs []) h (keep_without f irs keep) = Ok b /\ ia_reshape b (masked f (map dim irs)) = Ok y /\ basis_ok (f, y).
Proof.
  intros Sf L2 E. pose proof (sub_input f h Sf (proj1 L2) E) as IO. destruct (Rec (picked f irs []) h (keep_without f irs keep)) as (b & Eb & Rb).
  - unfold picked. rewrite map_length. exact L2.
  - intros x Hx. apply in_map_iff in Hx as (i & <- & Hi). apply nth_In. exact (iset_in n f i Sf Hi).
  - exact (sub_trivial g irs f Gg Co Sf h E).
  - exact IO.
  - set (m := maskof n f). assert (Lm : length ls = length m) by (unfold m; rewrite maskof_length; apply Lls).
    assert (Es : flats (picked f irs []) = select m ls) by (unfold ls, flats, m, n; rewrite select_map, <- (picked_select f irs []) by exact Sf; reflexivity).
    destruct Rb as [Rb _]. unfold found in Rb. rewrite Es in Rb. destruct (good_reshape m ls _ _ b Lm Rb) as (y & Ey & Gy). exists b, y. split; [exact Eb|]. split; [rewrite masked_mk; exact Ey|]. split; [exact Sf|]. split; [intros Q; cbn [fst] in Q; subst f; cbn in L2; lia|]. cbn [fst snd]. fold m.
    exists (fun c => passes (keep_without f irs keep) c = true), (lifted m (symmetric_under h (picked f irs []))). split; [exact Gy|]. split; [|split].
    + intros a c. apply (keep_reach f irs keep a c).
    + intros T o HT Ho. exact (slice_symmetric g irs f Gg Co Sf h E T o HT Ho).
    + intros L1 T. unfold lifted. apply (symmetric_trivial h _ (in_group _ _ IO) (in_comp _ _ IO)); [apply (in_nodup _ _ IO)|]. exact (sub_trivial g irs f Gg Co Sf h E L1).
Qed.
Lemma merge_ok bases : (3 <= length bases)%nat -> bases_ok bases -> exists bases', merge_step rec irs g keep bases = Ok bases' /\ bases_ok bases' /\ length bases = S (length bases').
Proof.
  intros L3 [F P]. pose proof F as F0. rewrite Forall_forall in F0. unfold merge_step. fold n. set (U := fun i j => set_union n (fst (nth i bases dbasis)) (fst (nth j bases dbasis))).
  destruct (mapM_ok (fun '(i, j) => let f := U i j in let! d := subgroup_dim f g (map dim irs) in Ok (d, (i, j, f))) (fun p c => snd c = (fst p, snd p, U (fst p) (snd p))) (index_pairs (length bases))) as (cs & Ecs & Fcs).
  { intros [i j] _. destruct (dim_ok (U i j)) as (d & Ed); [apply iset_union|]. cbv zeta. rewrite Ed. cbn [bind]. eexists. split; reflexivity. }
  unfold U in Ecs. rewrite Ecs. cbn [bind]. clear Ecs.
  assert (Ncs : cs <> []).
  { assert (Q : In (0, 1)%nat (index_pairs (length bases))) by (apply index_pairs_in; lia). destruct (index_pairs (length bases)); [contradiction|]. inversion Fcs. discriminate. }
  destruct (first_min_in cs Ncs) as (c & Hc & Em). rewrite Em.
  assert (Hp : exists p, In p (index_pairs (length bases)) /\ snd c = (fst p, snd p, U (fst p) (snd p))) by (clear -Fcs Hc; induction Fcs as [|p c' ps cs H F IH]; [contradiction|]; destruct Hc as [<-|Hc]; [exists p; split; [left; reflexivity|exact H]|destruct (IH Hc) as (q & Hq & E); exists q; split; [right; exact Hq|exact E]]).
  destruct Hp as ([i j] & Hij & Ec). apply index_pairs_in in Hij. rewrite Ec. cbn [fst snd]. set (f := U i j).
  destruct (split_pair bases dbasis i j Hij) as (l1 & l2 & l3 & Eb & Er). rewrite Er. set (bi := nth i bases dbasis) in *. set (bj := nth j bases dbasis) in *. set (rest := l1 ++ l2 ++ l3).
  assert (Pb : Permutation bases (bi :: bj :: rest)).
  { rewrite Eb at 1. unfold rest. etransitivity; [symmetry; apply Permutation_middle|]. constructor. etransitivity; [|symmetry; apply (Permutation_middle [])]. cbn [app]. rewrite !app_assoc. symmetry. apply Permutation_middle. }
  pose proof (Permutation_length Pb) as Lb. cbn [length] in Lb.
  destruct (F0 bi) as (Si & Ni & _); [apply nth_In; lia|]. destruct (F0 bj) as (Sj & Nj & _); [apply nth_In; lia|].
  assert (Pc : Permutation ((fst bi ++ fst bj) ++ concat (map fst rest)) (seq 0 n)).
  { etransitivity; [|exact P]. symmetry. rewrite <- app_assoc. change (fst bi ++ fst bj ++ concat (map fst rest)) with (concat (map fst (bi :: bj :: rest))). rewrite <- !flat_map_concat_map. apply Permutation_flat_map, Pb. }
  assert (Nd : NoDup (fst bi ++ fst bj)).
  { assert (Nd : NoDup ((fst bi ++ fst bj) ++ concat (map fst rest))) by (apply (Permutation_NoDup (Permutation_sym Pc)), seq_NoDup). clear -Nd. induction (fst bi ++ fst bj) as [|a l IH]; [constructor|]. cbn [app] in Nd. inversion Nd; subst. constructor; [intros Q; apply H1, in_or_app; left; exact Q|apply IH; assumption]. }
  assert (Dj : forall k, In k (fst bi) -> ~ In k (fst bj)) by (intros k Hk Hk'; clear -Nd Hk Hk'; induction (fst bi) as [|c l IH]; [contradiction|]; cbn [app] in Nd; inversion Nd; subst; destruct Hk as [-> |Hk]; [apply H1, in_or_app; right; exact Hk'|apply IH; assumption]).
  pose proof (union_perm n _ _ Si Sj Dj) as Pu. change (set_union n (fst bi) (fst bj)) with f in Pu.
  assert (Lf : (2 <= length f < n)%nat).
  { pose proof (Permutation_length Pu) as Lu. rewrite app_length in Lu. pose proof (Permutation_length Pc) as Lc. rewrite !app_length, seq_length in Lc.
    destruct rest as [|r rest'] eqn:Erest; [cbn in Lb; lia|]. cbn [map concat] in Lc. rewrite app_length in Lc. destruct (F0 r) as (_ & Nr & _); [apply (Permutation_in _ (Permutation_sym Pb)); right; right; left; reflexivity|].
    destruct (fst bi), (fst bj), (fst r); try contradiction. cbn [length] in *. lia. }
  destruct (sub_group g irs f Gg ltac:(apply iset_union)) as (h & Eh & _). rewrite Eh. cbn [bind]. destruct (merged f h ltac:(apply iset_union) Lf Eh) as (b & y & E1' & E2' & Bok). rewrite E1'. cbn [bind]. rewrite E2'. cbn [bind]. eexists. split; [reflexivity|]. split.
  - split.
    + constructor; [exact Bok|]. apply Forall_forall. intros q Hq. apply F0. apply (Permutation_in _ (Permutation_sym Pb)). right. right. exact Hq.
    + cbn [map concat fst]. etransitivity; [|exact Pc]. apply Permutation_app_tail, Pu.
  - cbn [length]. exact Lb.
Qed.
Lemma loop_ok steps bases : (1 <= length bases <= steps + 2)%nat -> (length bases = 1%nat -> length g = 1%nat) -> bases_ok bases -> exists y, rtp_loop eigh eps (fun v => v) steps rec irs g keep bases = Ok y /\ result irs g keep y.
Proof.
  revert bases. induction steps as [|steps IH]; intros bases L L1 B; (destruct bases as [|fa [|[fb b] [|c bases]]]; [cbn in L; lia|apply loop_one; [exact B|apply L1; reflexivity]|destruct fa; apply loop_two, B|]).
  - cbn in L. lia.
  - destruct fa as [fa a], c as [fc c]. change (rtp_loop eigh eps (fun v => v) (S steps) rec irs g keep ((fa, a) :: (fb, b) :: (fc, c) :: bases)) with (let! bases := merge_step rec irs g keep ((fa, a) :: (fb, b) :: (fc, c) :: bases) in rtp_loop eigh eps (fun v => v) steps rec irs g keep bases).
    set (bs := (fa, a) :: (fb, b) :: (fc, c) :: bases) in *.
    destruct (merge_ok bs) as (bs' & Em & B' & Lb); [unfold bs; cbn; lia|exact B|]. rewrite Em. cbn [bind]. unfold bs in Lb. cbn [length] in L, Lb. apply IH; [lia|lia|exact B'].
Qed.
Theorem general_ok : exists y, rtp_general eigh eps (fun v => v) rec irs g keep = Ok y /\ result irs g keep y.
Proof.
  unfold rtp_general. fold n. destruct (mapM_ok (fun i => let! b := eye_basis irs i in Ok ([i], b)) (fun i (fb : basis) => fst fb = [i] /\ basis_ok fb) (seq 0 n)) as (bs & E & F).
  { intros i Hi. apply in_seq in Hi. destruct (eye_good irs i) as (b & Eb & Gb); [unfold n in *; lia|]. rewrite Eb. cbn [bind]. eexists. split; [reflexivity|]. split; [reflexivity|]. split; [apply iset_one; lia|]. split; [discriminate|]. exists (fun _ => True), (fun _ => True). cbn [fst snd]. split; [exact Gb|]. auto. }
  assert (G : forall l bs, Forall2 (fun i (fb : basis) => fst fb = [i] /\ basis_ok fb) l bs -> Forall basis_ok bs /\ concat (map fst bs) = l).
  { induction 1 as [|i c is bs' H F' IH]; [split; [constructor|reflexivity]|]. destruct IH as [IH1 IH2]. split; [constructor; [apply H|exact IH1]|]. cbn [map concat]. rewrite IH2, (proj1 H). reflexivity. }
  rewrite E. cbn [bind]. assert (Lb : length (seq 0 n) = length bs) by (eapply Forall2_length, F). rewrite seq_length in Lb. assert (Nn : (0 < n)%nat) by (pose proof (in_ne _ _ In_ok) as N; destruct (Nat.eq_dec n 0) as [Q|Q]; [exfalso; apply N, length_zero_iff_nil, Q|lia]). apply loop_ok; [change (basis) with (shape * iarray)%type; lia|intros Q; apply (in_one _ _ In_ok); change (length irs) with n; rewrite Lb; exact Q|]. split.
  - exact (proj1 (G _ _ F)).
  - rewrite (proj2 (G _ _ F)). apply Permutation_refl.
Qed.
End Level.

(* ---------- the recursion ---------- *)
Variable optimized : irreps -> nat -> option (list irrep) -> res iarray.
(* no index has more than one irrep, or the optimised implementation is switched off, or there is no symmetry *)
Definition not_optimized (flag : bool) (irs : list irreps) (g : list signed) : Prop := flag = false \/ Forall (fun x => (num_irreps x <= 1)%nat) irs \/ length g = 1%nat.
Lemma trivial_not_symmetric n (g sym : list signed) : (1 < n)%nat -> length g = 1%nat -> symmetric_perm_repr n = Ok sym -> same_set g sym = false.
Proof.
  intros Hn L E. destruct (group_ok n) as (l & El & Nl & Ll & Hl). unfold symmetric_perm_repr in E. rewrite El in E. cbn [bind] in E. assert (Es : sym = map (fun p => (1%Z, p)) l) by congruence. unfold same_set. match goal with |- ?b = false => destruct b eqn:B end; [|reflexivity]. exfalso. apply andb_prop in B as [_ B]. rewrite forallb_forall in B.
  destruct g as [|a [|c g]]; try discriminate. assert (F : (2 <= fact n)%nat) by (destruct n as [|[|n]]; [lia|lia|]; cbn [fact]; pose proof (lt_O_fact n); nia). destruct l as [|p [|q l]]; cbn [length] in Ll; try lia. cbn [map] in Es. subst sym.
  assert (H : forall s, In s ((1%Z, p) :: (1%Z, q) :: map (fun p => (1%Z, p)) l) -> s = a).
  { intros s Hs. specialize (B s Hs). unfold smem in B. cbn [existsb] in B. rewrite Bool.orb_false_r in B. apply signed_eqb_eq in B. exact B. }
  pose proof (H (1%Z, p) ltac:(cbn; auto)) as H1. pose proof (H (1%Z, q) ltac:(cbn; auto)) as H2. assert (p = q) by congruence. subst q. inversion Nl as [|? ? N1 _]. apply N1. left. reflexivity.
Qed.
Theorem rtp_ok fuel flag irs g keep : (length irs < fuel)%nat -> not_optimized flag irs g -> input_ok irs g -> exists y, rtp eigh eps (fun v => v) optimized fuel flag irs g keep = Ok y /\ result irs g keep y.
Proof.
  revert irs g keep. induction fuel as [|fuel IH]; intros irs g keep Lf No Io; [lia|]. cbn [rtp].
  assert (G : exists y, rtp_general eigh eps (fun v => v) (rtp eigh eps (fun v => v) optimized fuel flag) irs g keep = Ok y /\ result irs g keep y).
  { apply general_ok; [exact Io|]. intros irs' g' keep' L' Hs Ht Io'. apply IH; [lia| |exact Io']. destruct No as [No|[No|No]]; [left; exact No|right; left|right; right; exact (Ht No)]. apply Forall_forall. intros x Hx. rewrite Forall_forall in No. apply No, Hs, Hx. }
  destruct flag; [|exact G]. destruct (group_ok (length irs)) as (l & El & _). assert (Es : symmetric_perm_repr (length irs) = Ok (map (fun p => (1%Z, p)) l)) by (unfold symmetric_perm_repr; rewrite El; reflexivity). rewrite Es. cbn [bind andb].
  destruct No as [No|[No|No]]; [discriminate| |].
  - assert (Q : (1 <? num_irreps (nth 0 irs []))%nat = false) by (apply Nat.ltb_ge; destruct irs as [|x irs]; [cbn; lia|]; inversion No; assumption). rewrite Q, Bool.andb_false_r. exact G.
  - destruct (Nat.ltb_spec 1 (length irs)) as [H|H]; [|rewrite Bool.andb_false_r; exact G]. rewrite (trivial_not_symmetric _ g _ H No Es). exact G.
Qed.
End Main.
