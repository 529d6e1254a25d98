(* Every IrrepsArray that a sequence of public operations can build is coherent. *)
From Coq Require Import Reals Lra.
From Verif Require Import PyBase PermModel PermProofs IrrepsModel IrrepsProofs IrrepsProofs2 ArrayModel ArrayProofs ArrayOps RechunkProofs SliceProofs SliceProofs2 ArithProofs LeadModel LeadProofs BlockProofs AxisProofs StackProofs BilinProofs ActProofs.
Open Scope nat_scope.

(* the values of a chunk have the shape it declares *)
Definition good (c : chunk) : Prop := forall i, valid (c_lead c) i -> length (c_val c i) = c_mul c /\ Forall (fun r => length r = c_dim c) (c_val c i).
Definition good_opt (c : option chunk) : Prop := match c with None => True | Some c => good c end.

Lemma wf_good s m c : wf_chunk s m c -> good c.
Proof. intros (E & Em & Ed & H) i Hi. rewrite Em, Ed. apply H. rewrite <- E. exact Hi. Qed.
Lemma wf_good_opt s m c : wf_opt s m c -> good_opt c.
Proof. destruct c; [apply wf_good|auto]. Qed.
Lemma good_wf s m c : good c -> c_lead c = s -> c_mul c = fst m -> c_dim c = ir_dim (snd m) -> wf_chunk s m c.
Proof. intros H E Em Ed. repeat split; auto; intros; rewrite <- ?Em, <- ?Ed; apply H; rewrite E; assumption. Qed.
Lemma pairs_good x : coherent x -> Forall (fun p => wf_opt (lead x) (fst p) (snd p)) (combine (irr x) (chunks x)).
Proof. apply pairs_wf. Qed.
Lemma chunks_good x : coherent x -> Forall good_opt (chunks x).
Proof.
  intros H. pose proof (pairs_wf x H) as W. rewrite <- (pairs_snd x H). apply Forall_map. eapply Forall_impl; [|exact W]. intros p. apply wf_good_opt.
Qed.
Lemma from_chunks_coherent x cs s dt y : Forall good_opt cs -> from_chunks x cs s dt = Ok y -> coherent y.
Proof.
  intros G E0. pose proof E0 as E. unfold from_chunks in E. destruct (Nat.eqb_spec (length x) (length cs)) as [L|]; [|discriminate]. cbn [negb] in E.
  destruct (forallb _ (combine cs x)) eqn:F; [|discriminate]. cbn [negb] in E.
  assert (W : Forall2 (wf_opt s) x cs).
  { clear E E0. revert cs L G F. induction x as [|[m ir] x IH]; intros [|c cs] L G F; try discriminate; constructor.
    - cbn [combine forallb] in F. apply andb_true_iff in F as [F _]. inversion G; subst. destruct c as [c|]; [|exact I]. cbn. rewrite !andb_true_iff, shape_eqb_eq, !Nat.eqb_eq in F.
      apply good_wf; tauto.
    - cbn [combine forallb] in F. apply andb_true_iff in F as [_ F]. inversion G; subst. apply IH; auto. }
  destruct (negb (dt || _)) eqn:N; [discriminate|]. apply negb_false_iff, orb_true_iff in N.
  assert (N' : dt = true \/ existsb (fun c => negb (is_none c)) cs = true).
  { destruct N as [N|N]; [left; exact N|right]. rewrite <- N. clear. induction cs as [|[c|] cs IH]; cbn; congruence. }
  destruct (from_chunks_ok x cs s dt W N') as (y' & E' & _ & _ & C & _).
  replace y with y' by congruence. exact C.
Qed.

(* ---------- the public operations on a pool of arrays (the variables of the user's program) ---------- *)
Inductive operation :=
  (* constructors: IrrepsArray(irreps, array), from_chunks, zeros, ones *)
  | New (x : irreps) (s : shape) (w : nat) (a : idx -> list R)
  | FromChunks (x : irreps) (cs : list (option chunk)) (s : shape) (dtype : bool)
  | Zeros (x : irreps) (s : shape) | Ones (x : irreps) (s : shape)
  (* x.chunks (fills the cache), pytree flatten/unflatten *)
  | ReadChunks (k : nat) | Pytree (k : nat)
  (* arithmetic *)
  | Neg (k : nat) | Add (j k : nat) | Sub (j k : nat)
  | AddBare (k : nat) (s : shape) (w : nat) (b : idx -> list R) | SubBare (k : nat) (s : shape) (w : nat) (b : idx -> list R)
  | MulScalar (k : nat) (s : shape) (b : idx -> R) | DivScalar (k : nat) (s : shape) (b : idx -> R)
  | Pow (k : nat) (n : nat)
  (* structure of the irreps *)
  | Rechunk (k : nat) (t : irreps) | Simplify (k : nat) | Unify (k : nat) | Sort (k : nat) | Regroup (k : nat)
  | RemoveZeroChunks (k : nat) | Filter (k : nat) (keep drop : option selector) (lm : option Z) | ExtendWithZeros (k : nat) (new : irreps)
  | SliceByMul (k : nat) (sl : slice) | SliceByChunk (k : nat) (sl : slice)
  | GetIrreps (k : nat) (t : irreps) | GetSlice (k : nat) (start stop : option Z)
  (* leading axes *)
  | Index (k : nat) (its : list item) | Reshape (k : nat) (s : shape) | BroadcastTo (k : nat) (s : shape)
  | AtSetZero (k : nat) (its : list item) | AtSet (k : nat) (its : list item) (j : nat) | AtAdd (k : nat) (its : list item) (j : nat)
  | Reduce (op : rop) (k : nat) (axis : option (list Z)) (keepdims : bool)
  | Concatenate (ks : list nat) (axis : Z) | Stack (ks : list nat) (axis : Z)
  | Where (sm : shape) (mask : idx -> bool) (j k : nat)
  | MulToAxis (k : nat) (factor : option nat) (axis : Z) | AxisToMul (k : nat) (axis : Z) | AxisToIrreps (k : nat) (axis : Z)
  (* invariants, products, group action *)
  | Norm (k : nat) (squared per_irrep : bool) | Dot (j k : nat) (per_irrep : bool) | Cross (j k : nat)
  | Transform (D : rep) (k : nat).

Definition get_all (pool : list iarray) (ks : list nat) : res (list iarray) := mapM (get pool) ks.
Definition un (pool : list iarray) (k : nat) (f : iarray -> res iarray) : res iarray := let! x := get pool k in f x.
Definition bin (pool : list iarray) (j k : nat) (f : iarray -> iarray -> res iarray) : res iarray := let! x := get pool j in let! y := get pool k in f x y.
Definition out_of_fuel (r : option (res iarray)) : res iarray := match r with Some r => r | None => Err NotImplementedError end.
Definition run (pool : list iarray) (o : operation) : res iarray :=
  match o with
  | New x s w a => mkIA x s w a None None
  | FromChunks x cs s dt => from_chunks x cs s dt
  | Zeros x s => zeros x s
  | Ones x s => ones x s
  | ReadChunks k => un pool k (fun x => Ok (force_chunks x))
  | Pytree k => un pool k pytree_roundtrip
  | Neg k => un pool k neg
  | Add j k => bin pool j k add
  | Sub j k => bin pool j k sub
  | AddBare k s w b => un pool k (fun x => add_bare x s w b)
  | SubBare k s w b => un pool k (fun x => sub_bare x s w b)
  | MulScalar k s b => un pool k (fun x => mul_scalar x s b)
  | DivScalar k s b => un pool k (fun x => div_scalar x s b)
  | Pow k n => un pool k (fun x => pow_nat x n)
  | Rechunk k t => un pool k (fun x => rechunk x t)
  | Simplify k => un pool k ia_simplify
  | Unify k => un pool k ia_unify
  | Sort k => un pool k ia_sort
  | Regroup k => un pool k ia_regroup
  | RemoveZeroChunks k => un pool k remove_zero_chunks
  | Filter k keep drop lm => un pool k (fun x => ia_filter x keep drop lm)
  | ExtendWithZeros k new => un pool k (fun x => extend_with_zeros x new)
  | SliceByMul k sl => un pool k (fun x => ia_slice_by_mul x sl)
  | SliceByChunk k sl => un pool k (fun x => ia_slice_by_chunk x sl)
  | GetIrreps k t => un pool k (fun x => ia_getitem_irreps x t)
  | GetSlice k a b => un pool k (fun x => out_of_fuel (ia_getslice x (Slice a b None)))
  | Index k its => un pool k (fun x => out_of_fuel (ia_getitem x its))
  | Reshape k s => un pool k (fun x => ia_reshape x s)
  | BroadcastTo k s => un pool k (fun x => broadcast_to x s)
  | AtSetZero k its => un pool k (fun x => at_set_zero x its)
  | AtSet k its j => bin pool k j (fun x v => at_set x its v)
  | AtAdd k its j => bin pool k j (fun x v => at_add x its v)
  | Reduce op k axis kd => un pool k (fun x => reduce op x axis kd)
  | Concatenate ks axis => let! xs := get_all pool ks in concatenate xs axis
  | Stack ks axis => let! xs := get_all pool ks in stack xs axis
  | Where sm mask j k => bin pool j k (where_ sm mask)
  | MulToAxis k factor axis => un pool k (fun x => mul_to_axis x factor axis)
  | AxisToMul k axis => un pool k (fun x => axis_to_mul x axis)
  | AxisToIrreps k axis => un pool k (fun x => axis_to_irreps x axis)
  | Norm k sq pi => un pool k (fun x => norm x sq pi)
  | Dot j k pi => bin pool j k (fun x y => dot x y pi)
  | Cross j k => bin pool j k cross
  | Transform D k => un pool k (transform D)
  end.

(* bare arrays given as arguments have the shape they declare *)
Definition proper_args (o : operation) : Prop :=
  match o with
  | New x s w a => forall i, valid s i -> length (a i) = w
  | FromChunks _ cs _ _ => Forall good_opt cs
  | AddBare _ s w b | SubBare _ s w b => forall i, valid s i -> length (b i) = w
  | Transform D _ => rep_ok D
  | _ => True
  end.
(* The calls that can break coherence (see the refutations in ArrayProps.v) are excluded: + and - with broadcasting next to
   differing zero flags, ** next to a zero flag, indices that reach the feature axis behind the guard. *)
Definition benign (pool : list iarray) (o : operation) : Prop :=
  match o with
  | Add j k | Sub j k => forall x y, nth_error pool j = Some x -> nth_error pool k = Some y -> mergeable x y
  | Pow k n => forall x, nth_error pool k = Some x -> chs x = None \/ forallb negb (zero_flags x) = true
  | Index k its => existsb is_new its = false /\ forall x, nth_error pool k = Some x -> length its <= S (length (lead x))
  | _ => True
  end.
(* the pools a program can reach *)
Inductive history : list iarray -> Prop :=
  | h_start : history []
  | h_step pool o y : history pool -> proper_args o -> benign pool o -> run pool o = Ok y -> history (pool ++ [y]).

(* ---------- proofs ---------- *)
Lemma yields_coherent r x s a y : yields r x s a -> r = Ok y -> coherent y.
Proof. intros (z & E & _ & _ & H & _) E'. congruence. Qed.
Lemma new_coherent x s w a y : (forall i, valid s i -> length (a i) = w) -> mkIA x s w a None None = Ok y -> coherent y.
Proof.
  intros L E. assert (Ew : w = dim x). { unfold mkIA in E. destruct (Nat.eqb_spec w (dim x)); [assumption|discriminate]. } subst w. eapply yields_coherent; [apply (new_yields x s a L)|exact E].
Qed.
Lemma force_coherent x : coherent x -> coherent (force_chunks x).
Proof. intros H. pose proof H as (L & F & _). split; [exact L|]. split; [exact F|]. apply (chunks_chunks_ok x H). Qed.
Lemma bind_Ok {A B} (r : res A) (f : A -> res B) y : (let! a := r in f a) = Ok y -> exists a, r = Ok a /\ f a = Ok y.
Proof. destruct r; [eauto|discriminate]. Qed.
Lemma add_coherent x y z : coherent x -> coherent y -> mergeable x y -> add x y = Ok z -> coherent z.
Proof.
  intros Hx Hy Hm E. destruct (irreps_eqb (irr x) (irr y)) eqn:Ei; [|unfold add in E; rewrite Ei in E; discriminate]. apply irreps_eqb_eq in Ei.
  destruct (broadcast_shapes (lead x) (lead y)) as [s|] eqn:Es; [|unfold add in E; rewrite Ei, irreps_eqb_refl, Es in E; discriminate].
  destruct (add_ok x y s Hx Hy Ei Es) as [_ Y]. eapply yields_coherent; [exact (Y Hm)|exact E].
Qed.
Lemma sub_coherent x y z : coherent x -> coherent y -> mergeable x y -> sub x y = Ok z -> coherent z.
Proof.
  intros Hx Hy Hm E. destruct (irreps_eqb (irr x) (irr y)) eqn:Ei; [|unfold sub in E; rewrite Ei in E; discriminate]. apply irreps_eqb_eq in Ei.
  destruct (broadcast_shapes (lead x) (lead y)) as [s|] eqn:Es; [|unfold sub in E; rewrite Ei, irreps_eqb_refl, Es in E; discriminate].
  destruct (sub_ok x y s Hx Hy Ei Es) as [_ Y]. eapply yields_coherent; [exact (Y Hm)|exact E].
Qed.
Lemma bdim_dim a b n : bdim a b = Ok n -> n = a -> b = a \/ b = 1.
Proof.
  unfold bdim. destruct (Nat.eqb_spec a b); [auto|]. destruct (Nat.eqb_spec a 1); [intros [= <-] ->; auto|]. destruct (Nat.eqb_spec b 1); [auto|discriminate].
Qed.
Lemma bare_coherent f x s w b z : coherent x -> (forall i, valid s i -> length (b i) = w) -> binop_bare f x s w b = Ok z -> coherent z.
Proof.
  intros H L E. pose proof E as E0. unfold binop_bare in E. destruct (all_even_scalars (irr x)) eqn:Ea; [|discriminate].
  destruct (broadcast_shapes (lead x) s) as [s'|] eqn:Es; [|discriminate]. cbn [bind] in E. destruct (bdim (dim (irr x)) w) as [w'|] eqn:Ew; [|discriminate]. cbn [bind] in E.
  assert (w' = dim (irr x)). { unfold mkIA in E. destruct (Nat.eqb_spec w' (dim (irr x))); [assumption|discriminate]. }
  eapply yields_coherent; [|exact E0]. apply (binop_bare_yields f x s w b s' H Ea Es); [|exact L]. eapply bdim_dim; eassumption.
Qed.
Lemma scale_coherent f x s b z : (forall v, f 0%R v = 0%R) -> coherent x -> scale_by f x s b = Ok z -> coherent z.
Proof.
  intros Hf H E. pose proof E as E0. unfold scale_by in E. destruct (lmax (irr x)) as [L|] eqn:El; [|discriminate]. cbn [bind] in E.
  destruct (broadcast_shapes (lead x) s) as [s'|] eqn:Es; [|discriminate]. eapply yields_coherent; [|exact E0]. apply (scale_yields f x s b s' H); [|exact Es|auto].
  intros En. destruct (lmax_err (irr x)) as [_ Q]. destruct (Q En) as (e & Q'). congruence.
Qed.
Lemma rechunk_coherent x t z : coherent x -> rechunk x t = Ok z -> coherent z.
Proof.
  intros H E. destruct (irreps_eqb (simplify (irr x)) (simplify t)) eqn:Es; [|unfold rechunk, rechunk_opt in E; rewrite Es in E; discriminate].
  apply irreps_eqb_eq in Es. eapply yields_coherent; [apply (rechunk_yields x t H Es)|exact E].
Qed.
Lemma Forall_filter_good {A} (f : option chunk * A -> bool) cs l : Forall good_opt cs -> Forall good_opt (map fst (filter f (combine cs l))).
Proof.
  intros H. apply Forall_map, Forall_forall. intros [c a] Hin. apply filter_In in Hin as [Hin _]. apply in_combine_l in Hin. rewrite Forall_forall in H. apply H, Hin.
Qed.
Lemma filter_coherent x keep drop lm z : coherent x -> ia_filter x keep drop lm = Ok z -> coherent z.
Proof.
  intros H E. assert (G : forall new, from_chunks new (map fst (filter (fun '(_, m) => contains new (snd m)) (combine (chunks x) (irr x)))) (lead x) true = Ok z -> coherent z).
  { intros new. apply from_chunks_coherent. apply Forall_filter_good, chunks_good, H. }
  unfold ia_filter in E. destruct keep, drop, lm; try (apply bind_Ok in E as (new & _ & E); exact (G new E)). injection E as <-. exact H.
Qed.
Lemma extend_coherent x new z : coherent x -> extend_with_zeros x new = Ok z -> coherent z.
Proof.
  intros H E. unfold extend_with_zeros in E. destruct (extend_loop (combine (irr x) (chunks x)) new) as [cs ok] eqn:El. destruct ok; [|discriminate]. cbn [negb] in E.
  destruct (extend_loop_spec (lead x) _ _ _ _ (pairs_wf x H) El) as [_ I2]. destruct (I2 eq_refl) as (_ & _ & _ & F & _). eapply from_chunks_coherent; [|exact E].
  clear - F. induction F; constructor; [|assumption]. eapply wf_good_opt; eassumption.
Qed.
Lemma chunk_slice_good a b c : (0 <= a)%Z -> good c -> good (chunk_slice a b c).
Proof.
  intros Ha H i Hi. cbn in *. destruct (H i Hi) as [L F]. unfold list_slice. split.
  - rewrite firstn_length, skipn_length, L. lia.
  - apply Forall_forall. intros r Hr. apply firstn_In, skipn_In in Hr. rewrite Forall_forall in F. apply F, Hr.
Qed.
Lemma mul_slice_good a b : forall l i new cs, Forall (fun p => good_opt (snd p)) l -> ia_mul_slice_loop a b i l = Ok (new, cs) -> Forall good_opt cs.
Proof.
  induction l as [|[[m ir] c] l IH]; intros i new cs G E; cbn [ia_mul_slice_loop] in E; [injection E as <- <-; constructor|]. inversion G as [|? ? G1 G2]; subst. cbn [snd] in G1.
  destruct (_ && _)%bool; [|destruct (_ && _)%bool; [destruct c as [c|]; [|discriminate]|]].
  - apply bind_Ok in E as ([l' cs'] & E & E'). injection E' as <- <-. constructor; [exact G1|eapply IH; eassumption].
  - apply bind_Ok in E as ([l' cs'] & E & E'). injection E' as <- <-. constructor; [|eapply IH; eassumption]. apply chunk_slice_good; [lia|exact G1].
  - eapply IH; eassumption.
Qed.
Lemma slice_by_mul_coherent x sl z : coherent x -> ia_slice_by_mul x sl = Ok z -> coherent z.
Proof.
  intros H E. unfold ia_slice_by_mul in E. apply bind_Ok in E as ([[a b] st] & _ & E). destruct (negb (st =? 1)%Z); [discriminate|].
  apply bind_Ok in E as ([l cs] & El & E). apply bind_Ok in E as (new & _ & E). eapply from_chunks_coherent; [|exact E]. eapply mul_slice_good; [|exact El].
  eapply Forall_impl; [|apply (pairs_wf x H)]. intros p. apply wf_good_opt.
Qed.

Lemma slice_by_chunk_coherent x sl z : coherent x -> ia_slice_by_chunk x sl = Ok z -> coherent z.
Proof.
  intros H E. unfold ia_slice_by_chunk in E. apply bind_Ok in E as ([[a b] st] & _ & E). apply bind_Ok in E as (new & _ & E). apply bind_Ok in E as (cs & Ec & E).
  eapply from_chunks_coherent; [|exact E]. apply Forall_forall. intros c Hc. pose proof (chunks_good x H) as G. rewrite Forall_forall in G. eapply G, tuple_slice_In; eassumption.
Qed.
Lemma getitem_irreps_coherent x t z : coherent x -> ia_getitem_irreps x t = Ok z -> coherent z.
Proof.
  intros H E. destruct (match_positions (irr x) t) as [|k [|? ?]] eqn:Em; [unfold ia_getitem_irreps in E; rewrite Em in E; discriminate| |unfold ia_getitem_irreps in E; rewrite Em in E; discriminate].
  eapply yields_coherent; [apply (getitem_irreps_yields x t k H Em)|exact E].
Qed.
Lemma getslice_coherent x a b z : coherent x -> ia_getslice x (Slice a b None) = Some (Ok z) -> coherent z /\ lead z = lead x.
Proof.
  intros H E. unfold ia_getslice in E. destruct (slice_indices (Slice a b None) (dim (irr x))) as [[[s t] st]|] eqn:Es; [|discriminate].
  destruct (slice_indices_range _ _ _ _ _ Es) as (_ & R1 & _). assert (st = 1%Z) by (unfold slice_indices in Es; cbn in Es; congruence). subst st.
  destruct (R1 ltac:(lia)) as [_ Hb].
  destruct (getslice_spec (Z.to_nat s) (Z.to_nat t) 4 x H) as [(y & E' & _ & _ & _ & C & L & _)|(e & E' & _)].
  - unfold b2n. destruct (boundaryb _ _), (boundaryb _ _); lia.
  - lia.
  - replace z with y by congruence. auto.
  - congruence.
Qed.
Lemma index_all_coherent x its li z : coherent x -> leaves_features (length (lead x)) its li -> index_all x its = Ok z -> coherent z.
Proof.
  intros H Hl E. destruct (np_index li (lead x)) as [sels|e] eqn:En.
  - eapply yields_coherent; [apply (index_all_yields x its li sels H Hl En)|exact E].
  - exfalso. unfold index_all in E. pose proof (np_index_features _ its li (lead x) [dim (irr x)] Hl eq_refl) as Q. specialize (Q ltac:(cbn; lia) 0 eq_refl). cbn [repeat] in Q. rewrite app_nil_r in Q. rewrite Q, En in E. discriminate.
Qed.
Lemma index_coherent x its z : coherent x -> existsb is_new its = false -> length its <= S (length (lead x)) -> ia_getitem x its = Some (Ok z) -> coherent z.
Proof.
  intros H Hn Hl E. destruct (guard_leaves x its z E Hn Hl) as [(li & L & E')|(f & sl & y & -> & Hf & Ey & L & E')].
  - eapply index_all_coherent; eassumption.
  - destruct sl as [a b st]. assert (st = None) by (destruct a, b, st; cbn in Hf; congruence). subst st. destruct (getslice_coherent x a b y H Ey) as [Hy Ly].
    rewrite <- Ly in L. eapply index_all_coherent; eassumption.
Qed.
Lemma reshape_coherent x s z : coherent x -> ia_reshape x s = Ok z -> coherent z.
Proof.
  intros H E. destruct (Nat.eqb_spec (prod s) (prod (lead x))) as [Hs|Hs].
  - eapply yields_coherent; [apply (reshape_yields x s H Hs)|exact E].
  - rewrite reshape_rejects in E by exact Hs. discriminate.
Qed.
Lemma broadcast_to_coherent x s z : coherent x -> broadcast_to x s = Ok z -> coherent z.
Proof.
  intros H E. pose proof E as E0. unfold broadcast_to in E. apply bind_Ok in E as (t & Et & E). destruct (shape_eqb t s) eqn:Q; [|discriminate]. apply shape_eqb_eq in Q. subst t.
  eapply yields_coherent; [apply (broadcast_to_yields x s H Et)|exact E0].
Qed.
Lemma at_set_zero_coherent x its z : coherent x -> at_set_zero x its = Ok z -> coherent z.
Proof.
  intros H E. pose proof E as E0. unfold at_set_zero in E. apply bind_Ok in E as (li & El & E). apply bind_Ok in E as (sels & Es & E).
  eapply yields_coherent; [apply (at_set_zero_yields x its li sels H El Es)|exact E0].
Qed.
Lemma at_update_coherent upd x its v z : coherent x -> coherent v -> (upd = (fun _ v => v) \/ upd = zipR Rplus) -> at_update upd x its v = Ok z -> coherent z.
Proof.
  intros H Hv Hu E. pose proof E as E0. unfold at_update in E. apply bind_Ok in E as (li & El & E).
  destruct (irreps_eqb (simplify (irr x)) (simplify (irr v))) eqn:Ei; [|discriminate]. cbn [negb] in E. apply irreps_eqb_eq in Ei. symmetry in Ei.
  apply bind_Ok in E as (v' & Ev & E). apply bind_Ok in E as (sels & Es & E). apply bind_Ok in E as (t & Et & E).
  destruct (shape_eqb t (out_shape sels)) eqn:Q; [|discriminate]. apply shape_eqb_eq in Q. subst t.
  destruct (rechunk_yields v (irr x) Hv Ei) as (v'' & Ev' & _ & Lv & _). replace v'' with v' in * by congruence. rewrite Lv in Et.
  eapply yields_coherent; [apply (at_update_yields upd x its v li sels H Hv Ei El Es Et Hu)|exact E0].
Qed.
Lemma reduce_coherent op x axis kd z : coherent x -> reduce op x axis kd = Ok z -> coherent z.
Proof.
  intros H E. unfold reduce in E. apply bind_Ok in E as (axes & _ & E). destruct axes as [|a axes]; [injection E as <-; exact H|].
  assert (L : forall l y, reduce_lead op x l kd = Ok y -> coherent y).
  { intros l y Ey. destruct l as [|b l]; [injection Ey as <-; exact H|]. eapply yields_coherent; [apply (reduce_lead_yields op x (b :: l) kd H); discriminate|exact Ey]. }
  destruct (_ <? _); [eapply L, E|]. apply bind_Ok in E as (y & Ey & E). eapply yields_coherent; [apply (reduce_mul_yields op y (L _ _ Ey))|exact E].
Qed.
Lemma assemble_same xs s pick z : assemble xs s pick = Ok z -> Forall (fun y => irr y = irr (hd dflt_ia xs)) xs.
Proof.
  intros E. destruct (forallb (fun x => irreps_eqb (irr x) (irr (hd dflt_ia xs))) xs) eqn:F; [|rewrite assemble_rejects in E by exact F; discriminate].
  apply Forall_forall. intros y Hy. rewrite forallb_forall in F. apply irreps_eqb_eq, F, Hy.
Qed.
Lemma standard_axis_lt axis n k : standard_axis axis n = Ok k -> k < n.
Proof.
  unfold standard_axis. destruct (_ && _)%bool eqn:E; [|discriminate]. intros [= <-]. apply andb_true_iff in E as [A B]. apply Z.leb_le in A. apply Z.ltb_lt in B.
  pose proof (Z.mod_pos_bound axis (Z.of_nat n) ltac:(lia)). lia.
Qed.
Lemma stack_coherent xs axis z : Forall coherent xs -> stack xs axis = Ok z -> coherent z.
Proof.
  intros H E. pose proof E as E0. unfold stack in E. destruct xs as [|x0 xs]; [discriminate|]. apply bind_Ok in E as (k & Ek & E).
  destruct (Nat.eqb_spec k (S (length (lead x0)))) as [|Hk]; [discriminate|].
  destruct (forallb (fun x => shape_eqb (lead x) (lead x0)) (x0 :: xs)) eqn:F; [|discriminate]. cbn [negb] in E. apply assemble_same in E. cbn [hd] in E.
  eapply yields_coherent; [apply (stack_yields (x0 :: xs) (irr x0) (lead x0) axis k); [discriminate| |exact Ek|apply standard_axis_lt in Ek; lia]|exact E0].
  rewrite forallb_forall in F. rewrite Forall_forall in *. intros y Hy. split; [auto|]. split; [auto|]. apply shape_eqb_eq, F, Hy.
Qed.
Lemma remove_at_length {A} k (l : list A) n : k < length l -> length l = S n -> length (remove_at k l) = n.
Proof. intros H E. unfold remove_at. rewrite app_length, firstn_length, skipn_length. lia. Qed.
Lemma concatenate_coherent xs axis z : Forall coherent xs -> concatenate xs axis = Ok z -> coherent z.
Proof.
  intros H E. pose proof E as E0. unfold concatenate in E. destruct xs as [|x0 xs]; [discriminate|]. apply bind_Ok in E as (k & Ek & E).
  destruct (Nat.eqb_spec k (length (lead x0))) as [->|Hk].
  - pose proof E as E1. unfold concat_last in E. destruct (forallb (fun y => shape_eqb (lead y) (lead x0)) (x0 :: xs)) eqn:F; [|discriminate].
    eapply yields_coherent; [apply (concat_last_yields (lead x0) (x0 :: xs)); [discriminate|]|exact E1].
    rewrite forallb_forall in F. rewrite Forall_forall in *. intros y Hy. split; auto. apply shape_eqb_eq, F, Hy.
  - apply standard_axis_lt in Ek as Hlt. destruct (forallb _ (x0 :: xs)) eqn:F; [|discriminate]. cbn [negb] in E. apply assemble_same in E. cbn [hd] in E.
    rewrite forallb_forall in F. rewrite Forall_forall in *.
    destruct (length (lead x0)) as [|n] eqn:Ln; [lia|].
    assert (Lr : length (remove_at k (lead x0)) = n) by (apply remove_at_length; lia).
    eapply yields_coherent; [apply (concatenate_yields (x0 :: xs) (irr x0) (remove_at k (lead x0)) axis k); [discriminate| | |]|exact E0].
    + apply Forall_forall. intros y Hy. specialize (F y Hy). apply andb_true_iff in F as [F1 F2]. apply shape_eqb_eq in F1. apply Nat.eqb_eq in F2. split; [auto|]. split; [auto|]. split; [lia|exact F1].
    + rewrite Lr. exact Ek.
    + lia.
Qed.
Lemma where_coherent sm mask x y z : coherent x -> coherent y -> where_ sm mask x y = Ok z -> coherent z.
Proof.
  intros Hx Hy E. pose proof E as E0. unfold where_ in E. destruct (irreps_eqb (irr x) (irr y)) eqn:Ei; [|discriminate]. destruct (shape_eqb (lead x) (lead y)) eqn:El; [|discriminate].
  cbn [negb] in E. apply bind_Ok in E as (s & Es & E). apply irreps_eqb_eq in Ei. apply shape_eqb_eq in El. eapply yields_coherent; [apply (where_yields sm mask x y s Hx Hy Ei El Es)|exact E0].
Qed.
Lemma zip_opt_good {A} (F : A -> chunk -> chunk) (l : list A) cs : Forall good_opt cs -> (forall a c, In a l -> good c -> good (F a c)) ->
  Forall good_opt (map (fun '(a, c) => option_map (F a) c) (combine l cs)).
Proof.
  intros H HF. apply Forall_map, Forall_forall. intros [a c] Hin. rewrite Forall_forall in H. destruct c as [c|]; [|exact I]. cbn.
  apply HF; [eapply in_combine_l, Hin|]. apply (H (Some c)). eapply in_combine_r, Hin.
Qed.
Lemma opt_good (F : chunk -> chunk) cs : Forall good_opt cs -> (forall c, good c -> good (F c)) -> Forall good_opt (map (option_map F) cs).
Proof. intros H HF. apply Forall_map. eapply Forall_impl; [|exact H]. intros [c|]; cbn; auto. Qed.
Lemma good_nth c i k : good c -> valid (c_lead c) i -> k < c_mul c -> length (nth k (c_val c i) []) = c_dim c.
Proof. intros H Hi Hk. destruct (H i Hi) as [L F]. rewrite Forall_forall in F. apply F, nth_In. lia. Qed.

Lemma pair_chunks_good (G : mulirrep -> mulirrep) (F : mulirrep -> chunk -> chunk) x : coherent x ->
  (forall m c, In m (irr x) -> wf_chunk (lead x) m c -> good (F (G m) c)) ->
  Forall good_opt (map (fun '(m, c) => option_map (F m) c) (combine (map G (irr x)) (chunks x))).
Proof.
  intros H HF. rewrite combine_option_map. apply Forall_map, Forall_forall. intros [m c] Hin. destruct c as [c|]; [|exact I]. cbn.
  pose proof (pairs_wf x H) as W. rewrite Forall_forall in W. apply HF; [eapply in_combine_l, Hin|]. exact (W (m, Some c) Hin).
Qed.
Lemma good_of_wf s m c : wf_chunk s m c -> c_lead c = s /\ c_mul c = fst m /\ good c.
Proof. intros H. pose proof (wf_good _ _ _ H). destruct H as (? & ? & ?). auto. Qed.
Lemma mul_axis_good factor k nlead mul c : good c -> length (c_lead c) = nlead -> c_mul c = factor * mul -> good (mul_axis_chunk factor k nlead mul c).
Proof.
  intros H Hn Hm. unfold mul_axis_chunk. destruct (Nat.leb_spec k nlead); intros i Hi; cbn [c_lead c_mul c_dim c_val] in *.
  - apply valid_insert_inv in Hi; [|lia]. destruct Hi as [Hk Hi]. destruct (H _ Hi) as [L F]. unfold take_rows. split.
    + rewrite firstn_length, skipn_length, L, Hm. nia.
    + apply Forall_forall. intros r Hr. apply firstn_In, skipn_In in Hr. rewrite Forall_forall in F. auto.
  - apply valid_app_inv in Hi as (a & b & -> & Ha & Hb). inversion Hb as [|u ? ? b' Hu Hb']; subst. inversion Hb'; subst. rewrite removelast_app1, last_app1.
    split; [rewrite map_length, seq_length; reflexivity|]. apply Forall_map, Forall_forall. intros f Hf. apply in_seq in Hf. apply good_nth; auto. rewrite Hm. nia.
Qed.
Lemma mul_to_axis_coherent x factor axis z : coherent x -> mul_to_axis x factor axis = Ok z -> coherent z.
Proof.
  intros H E. unfold mul_to_axis in E. apply bind_Ok in E as (k & Ek & E). apply bind_Ok in E as (f & _ & E).
  destruct ((f =? 0) && negb (length (irr x) =? 0)) eqn:E0; [discriminate|]. destruct (forallb _ (irr x)) eqn:Ef; [|discriminate]. cbn [negb] in E.
  eapply from_chunks_coherent; [|exact E].
  assert (G : forall m c, In m (irr x) -> wf_chunk (lead x) m c -> good (mul_axis_chunk f k (length (lead x)) (fst m / f) c)).
  { intros m c Hin W. apply good_of_wf in W as (L & M & Gc). apply mul_axis_good; [exact Gc|rewrite L; reflexivity|]. rewrite M. rewrite forallb_forall in Ef. specialize (Ef m Hin).
    destruct m as [mul ir]. cbn [fst]. apply Nat.eqb_eq in Ef. apply Nat.div_exact; [|exact Ef]. intros ->. destruct (irr x); [contradiction|]. discriminate. }
  pose proof (pair_chunks_good (fun m => (fst m / f, snd m)) (fun m => mul_axis_chunk f k (length (lead x)) (fst m)) x H) as Q. cbn [fst] in Q. specialize (Q G).
  replace (map (fun '(mul, ir) => (mul / f, ir)) (irr x)) with (map (fun m : mulirrep => (fst m / f, snd m)) (irr x)) by (apply map_ext; intros []; reflexivity).
  erewrite map_ext; [exact Q|]. intros [[m ir] c]. reflexivity.
Qed.
Lemma nth_replace_prod k (s : shape) : k < length s -> prod (remove_at k s) * nth k s 0 = prod s.
Proof.
  intros H. unfold remove_at. rewrite <- (firstn_skipn k s) at 4. rewrite !prod_app. destruct (skipn k s) as [|d t] eqn:E.
  - apply (f_equal (@length nat)) in E. rewrite skipn_length in E. cbn in E. lia.
  - assert (nth k s 0 = d). { rewrite <- (firstn_skipn k s), app_nth2, E; rewrite firstn_length, Nat.min_l by lia; [rewrite Nat.sub_diag; reflexivity|lia]. }
    replace (skipn (S k) s) with t; [|rewrite <- (Nat.add_1_r k), <- skipn_skipn, E; reflexivity]. rewrite prod_cons. nia.
Qed.
Lemma prod_removelast (s : shape) : s <> [] -> prod (removelast s) * last s 0 = prod s.
Proof. intros H. rewrite (app_removelast_last 0 H) at 3. rewrite prod_app. cbn. lia. Qed.
Lemma prod_move k (s : shape) : k < length s -> prod (move_last_shape k s) = prod s.
Proof. intros H. unfold move_last_shape. rewrite prod_app, <- (nth_replace_prod k s H). cbn. lia. Qed.
Lemma move_last_valid k s i : k < length s -> valid (move_last_shape k s) i -> valid s (move_last_idx k i).
Proof.
  intros Hk Hi. unfold move_last_shape in Hi. apply valid_app_inv in Hi as (a & b & -> & Ha & Hb). inversion Hb as [|u ? ? b' Hu Hb']; subst. inversion Hb'; subst.
  unfold move_last_idx. rewrite removelast_app1, last_app1. replace s with (insert_at k (nth k s 0) (remove_at k s)) at 1 by (apply insert_remove, Hk).
  apply valid_insert; auto. unfold remove_at. rewrite app_length, firstn_length, skipn_length. lia.
Qed.
Lemma axis_mul_good k n mul c : good c -> k < length (c_lead c) -> n = last (c_lead c) 0 -> c_mul c = mul -> good (axis_mul_chunk k (removelast (c_lead c)) (n * mul) c).
Proof.
  intros H Hk -> Hm. set (s := c_lead c) in *. assert (Hs : s <> []) by (intros Q; rewrite Q in Hk; cbn in Hk; lia). unfold axis_mul_chunk. intros i Hi. cbn [c_lead c_mul c_dim c_val] in *.
  split; [rewrite map_length, seq_length; reflexivity|]. apply Forall_map, Forall_forall. intros u Hu. apply in_seq in Hu.
  fold s. set (p := ravel _ _).
  assert (Hp : p < prod (move_last_shape k s ++ [c_mul c])).
  { unfold p. rewrite prod_app, prod_move by exact Hk. cbn. rewrite Hm, Nat.mul_1_r. eapply Nat.lt_le_trans; [apply ravel_bound|].
    - apply valid_app; [exact Hi|]. constructor; [|constructor]. lia.
    - rewrite prod_app. cbn. pose proof (prod_removelast s Hs). nia. }
  pose proof (unravel_valid _ _ Hp) as Hv. set (j := unravel _ p) in *. apply valid_app_inv in Hv as (a & b & Ej & Ha & Hb). assert (X : exists v, b = [v] /\ v < c_mul c) by (clear -Hb; inversion Hb as [|v ? ? b' Hv Hb']; subst; inversion Hb'; subst; eauto). destruct X as (v & -> & Hv').
  rewrite Ej, removelast_app1, last_app1. apply good_nth; auto. apply move_last_valid; assumption.
Qed.
Lemma axis_to_mul_coherent x axis z : coherent x -> axis_to_mul x axis = Ok z -> coherent z.
Proof.
  intros H E. unfold axis_to_mul in E. destruct (lead x) as [|d s] eqn:El; [discriminate|]. rewrite <- El in E. apply bind_Ok in E as (k & Ek & E).
  destruct (Nat.eqb_spec k (length (lead x))) as [|Hk]; [discriminate|]. apply standard_axis_lt in Ek. eapply from_chunks_coherent; [|exact E].
  pose proof (pair_chunks_good (fun m => (last (lead x) 0 * fst m, snd m)) (fun m => axis_mul_chunk k (removelast (lead x)) (fst m)) x H) as Q. cbn [fst] in Q.
  replace (map (fun '(mul, ir) => (last (lead x) 0 * mul, ir)) (irr x)) with (map (fun m : mulirrep => (last (lead x) 0 * fst m, snd m)) (irr x)) by (apply map_ext; intros []; reflexivity).
  erewrite map_ext; [apply Q|].
  - intros m c Hin W. apply good_of_wf in W as (L & M & Gc). rewrite <- L. apply axis_mul_good; auto. rewrite L. lia.
  - intros [[m ir] c]. reflexivity.
Qed.
Lemma axis_to_irreps_coherent x axis z : coherent x -> axis_to_irreps x axis = Ok z -> coherent z.
Proof.
  intros H E. unfold axis_to_irreps in E. destruct (lead x) as [|d s] eqn:El; [discriminate|]. rewrite <- El in E. apply bind_Ok in E as (k & Ek & E).
  destruct (Nat.eqb_spec k (length (lead x))) as [|Hk]; [discriminate|]. destruct (negb _); [discriminate|]. refine (new_coherent _ _ _ _ _ _ E). intros. rewrite map_length, seq_length. reflexivity.
Qed.
Lemma norm_coherent x sq pi z : coherent x -> norm x sq pi = Ok z -> coherent z.
Proof.
  intros H E. destruct pi; eapply yields_coherent; try exact E; [apply norm_yields, H|apply norm_total_yields, H].
Qed.
Lemma mapM_Forall {A B} (f : A -> res B) (P : A -> Prop) (Q : B -> Prop) l r : (forall a b, P a -> f a = Ok b -> Q b) -> Forall P l -> mapM f l = Ok r -> Forall Q r.
Proof.
  intros Hf H. revert r. induction H as [|a l Ha H IH]; intros r E; cbn [mapM] in E; [injection E as <-; constructor|].
  destruct (f a) as [b|] eqn:Eb; [|discriminate]. destruct (mapM f l) as [bs|]; [|discriminate]. injection E as <-. constructor; eauto.
Qed.
Lemma combine_Forall {A B} (P : A -> Prop) (Q : B -> Prop) l l' : Forall P l -> Forall Q l' -> Forall (fun p => P (fst p) /\ Q (snd p)) (combine l l').
Proof. intros H H'. apply Forall_forall. intros [a b] Hin. rewrite Forall_forall in H, H'. split; [apply H|apply H']; [eapply in_combine_l|eapply in_combine_r]; exact Hin. Qed.
Lemma simplify_coherent x z : coherent x -> ia_simplify x = Ok z -> coherent z.
Proof. intros H E. eapply rechunk_coherent; [exact H|]. exact E. Qed.
Lemma simplify_irr x z : coherent x -> ia_simplify x = Ok z -> irr z = simplify (irr x) /\ lead z = lead x.
Proof. intros H E. destruct (ia_simplify_yields x H) as (y & E' & A & B & _). replace z with y by congruence. auto. Qed.
Lemma dot_coherent a b pi z : coherent a -> coherent b -> dot a b pi = Ok z -> coherent z.
Proof.
  intros Ha Hb E. unfold dot in E. apply bind_Ok in E as (a' & Ea & E). apply bind_Ok in E as (b' & Eb & E). pose proof (simplify_coherent a a' Ha Ea) as Ca. pose proof (simplify_coherent b b' Hb Eb) as Cb.
  destruct (irreps_eqb (irr a') (irr b')) eqn:Ei; [|discriminate]. cbn [negb] in E. apply irreps_eqb_eq in Ei. destruct pi.
  - apply bind_Ok in E as (out & Eo & E). eapply from_chunks_coherent; [|exact E].
    assert (W : Forall (fun p => exists m, wf_opt (lead a') m (fst p) /\ wf_opt (lead b') m (snd p)) (combine (chunks a') (chunks b'))).
    { pose proof (chunks_wf a' Ca) as W1. pose proof (chunks_wf b' Cb) as W2. rewrite <- Ei in W2. revert W1 W2. clear. generalize (chunks a') (chunks b'). induction (irr a') as [|m x IH]; intros l l' W1 W2; inversion W1; inversion W2; subst; [constructor|]. constructor; [eexists; split; eassumption|apply IH; assumption]. }
    eapply mapM_Forall; [|exact W|exact Eo]. intros [c d] o (m & Wc & Wd) Q. cbn [fst snd] in *. unfold dot_chunk in Q. destruct c as [c|]; [|injection Q as <-; exact I]. destruct d as [d|]; [|injection Q as <-; exact I].
    apply bind_Ok in Q as (s & Es & Q). injection Q as <-. intros i Hi. cbn [c_lead c_mul c_dim c_val] in *. destruct Wc as (Lc & Mc & Dc & Wc). destruct Wd as (Ld & Md & Dd & Wd). rewrite Lc, Ld in *.
    destruct (broadcast_valid _ _ _ _ Es Hi) as [V1 V2]. destruct (Wc _ V1) as [L1 _]. destruct (Wd _ V2) as [L2 _]. split.
    + rewrite map_length, combine_length, L1, L2, Mc. lia.
    + apply Forall_map, Forall_forall. intros [u v] _. reflexivity.
  - apply bind_Ok in E as (s & Es & E). destruct (existsb _ _).
    + refine (new_coherent _ _ _ _ _ _ E). reflexivity.
    + eapply yields_coherent; [apply zeros_yields|exact E].
Qed.
Lemma all_vectors_inv (x : irreps) : existsb (fun '(_, ir) => negb (ir_l ir =? 1)) x = false -> Forall (fun m => is_vector (snd m)) x.
Proof.
  intros H. apply Forall_forall. intros [m ir] Hin. unfold is_vector. destruct (Nat.eqb_spec (ir_l ir) 1) as [e|n]; [exact e|]. exfalso.
  assert (existsb (fun '(_, ir) => negb (ir_l ir =? 1)) x = true) by (apply existsb_exists; exists (m, ir); split; [exact Hin|apply negb_true_iff, Nat.eqb_neq, n]). congruence.
Qed.
Lemma cross_coherent a b z : coherent a -> coherent b -> cross a b = Ok z -> coherent z.
Proof.
  intros Ha Hb E. pose proof E as E0. unfold cross in E. destruct (existsb _ (irr a)) eqn:Va; [discriminate|]. destruct (existsb _ (irr b)) eqn:Vb; [discriminate|]. destruct (negb _); [discriminate|].
  apply all_vectors_inv in Va, Vb. apply bind_Ok in E as ([a' b'] & Ea & E). apply bind_Ok in E as (s & Es & E).
  destruct (align_two_irreps (irr a) (irr b)) as [[u v]|] eqn:Al; [|unfold align_two_arrays in Ea; rewrite Al in Ea; discriminate].
  destruct (align_arrays_yields a b u v Ha Hb Al) as (a'' & b'' & Ea' & _ & _ & La & _ & _ & _ & Lb & _). rewrite Ea in Ea'. injection Ea' as <- <-. rewrite La, Lb in Es.
  eapply yields_coherent; [apply (cross_yields a b u v s Ha Hb Va Vb Al Es)|exact E0].
Qed.
Lemma transform_coherent D x z : rep_ok D -> coherent x -> transform D x = Ok z -> coherent z.
Proof. intros HD H E. eapply yields_coherent; [apply (transform_act D x H HD)|exact E]. Qed.
Lemma pow_go_coherent x new n z : coherent x -> chs x = None \/ forallb negb (zero_flags x) = true -> Forall2 (fun m m' => mi_dim m = mi_dim m') (irr x) new ->
  mkIA new (lead x) (dim (irr x)) (fun i => map (fun a => pow a n) (arr x i)) None (map_chunks (chunk_map (fun a => pow a n)) (chs x)) = Ok z -> coherent z.
Proof.
  intros H Hz F2 E. unfold mkIA in E. destruct (Nat.eqb_spec (dim (irr x)) (dim new)) as [Ed|]; [|discriminate]. cbn [negb] in E.
  assert (Q : z = IA new (lead x) (fun i => map (fun a => pow a n) (arr x i)) None (map_chunks (chunk_map (fun a => pow a n)) (chs x)) /\
     match map_chunks (chunk_map (fun a => pow a n)) (chs x) with None => True | Some cs => chunk_shapes_ok new cs = true end).
  { revert E. destruct (map_chunks _ _) as [cs|]; cbn [negb]; [destruct (chunk_shapes_ok new cs); [|discriminate]; cbn [negb]; destruct (length cs =? length new); [|discriminate]|]; cbn [negb]; intros E; injection E as <-; auto. }
  clear E. destruct Q as [-> Q]. destruct H as (L & F & C). unfold coherent, zero_flags. cbn [irr lead arr zf chs].
  split; [intros i Hi; rewrite map_length, L by exact Hi; exact Ed|]. split; [apply flags_false|].
  destruct Hz as [->|K]; [exact I|]. destruct (chs x) as [cs|]; [|exact I]. cbn [map_chunks] in *.
  assert (Z : zero_flags x = repeat false (length (irr x))).
  { pose proof (flags_ok_length _ _ _ _ F) as Lf. rewrite <- Lf. clear -K. induction (zero_flags x) as [|b l IH]; [reflexivity|]. cbn in *. destruct b; [discriminate|]. f_equal. auto. }
  rewrite Z in C. clear -C F2 Q. revert C. generalize (arr x). revert cs Q. induction F2 as [|m m' y y' Em F2 IH]; intros cs Q a C; destruct cs as [|c cs]; cbn [length repeat chunks_ok map] in *; try contradiction; [exact I|].
  destruct C as [C1 C2]. unfold chunk_shapes_ok in Q. cbn [combine forallb] in Q. apply andb_true_iff in Q as [Q1 Q2]. split.
  - destruct c as [c|]; [|discriminate]. cbn in *. destruct C1 as (_ & (W1 & W2 & W3 & W4) & V). split; [reflexivity|].
    destruct m' as [mu ir']. cbn in Q1. rewrite andb_true_iff, !Nat.eqb_eq in Q1. destruct Q1 as [Q1a Q1b]. split.
    + unfold wf_chunk. cbn. split; [exact W1|]. split; [congruence|]. split; [congruence|]. intros i Hi. rewrite map_length. destruct (W4 i Hi) as [Lr FF]. split; [congruence|]. apply Forall_map.
      eapply Forall_impl; [|exact FF]. intros r Hr. cbv beta. rewrite map_length. cbv beta in Hr. congruence.
    + intros i Hi. rewrite <- concat_map, V, firstn_map by auto. rewrite Em. reflexivity.
  - eapply chunks_ok_ext; [|apply (IH _ Q2 _ C2)]. intros i Hi. cbv beta. rewrite skipn_map, Em. reflexivity.
Qed.
Lemma lmax0_dims x : lmax x = Ok 0 -> Forall2 (fun m m' => mi_dim m = mi_dim m') x (map (fun '(mul, _) => (mul, Irrep 0 Even)) x).
Proof.
  intros E. apply lmax_ok in E as [_ E]. assert (K : forall m, In m x -> fst m = 0 \/ ir_l (snd m) = 0).
  { intros [m ir] Hin. cbn. destruct m as [|m]; [auto|right]. assert (ir_l ir <= 0); [|lia]. apply E. unfold flat. apply in_flat_map. exists (S m, ir). split; [exact Hin|left; reflexivity]. }
  clear E. induction x as [|[m ir] x IH]; cbn [map]; constructor.
  - destruct (K (m, ir) (or_introl eq_refl)) as [Q|Q]; cbn in Q; [subst; reflexivity|]. unfold mi_dim, ir_dim. cbn [fst snd]. rewrite Q. reflexivity.
  - apply IH. intros. apply K. right. assumption.
Qed.
Lemma pow_coherent x n z : coherent x -> chs x = None \/ forallb negb (zero_flags x) = true -> pow_nat x n = Ok z -> coherent z.
Proof.
  assert (R : Forall2 (fun m m' : mulirrep => mi_dim m = mi_dim m') (irr x) (irr x)) by (induction (irr x); constructor; auto).
  intros H Hz E. unfold pow_nat in E. destruct (all_even_scalars (irr x)).
  - eapply pow_go_coherent; eassumption.
  - apply bind_Ok in E as (L & EL & E). destruct (Nat.eqb_spec L 0) as [->|]; [|discriminate]. eapply pow_go_coherent; [exact H|exact Hz| |exact E]. destruct (Nat.even n); [apply lmax0_dims, EL|exact R].
Qed.

Lemma get_In {A} (l : list A) k a : get l k = Ok a -> In a l.
Proof. unfold get. destruct (nth_error l k) eqn:E; [|discriminate]. intros [= <-]. eapply nth_error_In, E. Qed.
Lemma get_nth {A} (l : list A) k a : get l k = Ok a -> nth_error l k = Some a.
Proof. unfold get. destruct (nth_error l k); [intros [= <-]; reflexivity|discriminate]. Qed.
Lemma get_all_In pool ks xs : get_all pool ks = Ok xs -> Forall (fun x => In x pool) xs.
Proof. intros E. eapply (mapM_Forall _ (fun _ => True)); [|apply Forall_forall; auto|exact E]. intros k x _. apply get_In. Qed.
Lemma fuel_Ok r z : out_of_fuel r = Ok z -> r = Some (Ok z).
Proof. destruct r; cbn; congruence. Qed.

(* every operation, run on coherent arrays, returns a coherent array or raises *)
Theorem run_coherent pool o z : Forall coherent pool -> proper_args o -> benign pool o -> run pool o = Ok z -> coherent z.
Proof.
  intros P A B E. rewrite Forall_forall in P.
  assert (U : forall k f, un pool k f = Ok z -> exists x, nth_error pool k = Some x /\ coherent x /\ f x = Ok z).
  { intros k f Q. apply bind_Ok in Q as (x & Ex & Q). exists x. split; [apply get_nth, Ex|]. split; [eapply P, get_In, Ex|exact Q]. }
  assert (V : forall j k f, bin pool j k f = Ok z -> exists x y, nth_error pool j = Some x /\ nth_error pool k = Some y /\ coherent x /\ coherent y /\ f x y = Ok z).
  { intros j k f Q. apply bind_Ok in Q as (x & Ex & Q). apply bind_Ok in Q as (y & Ey & Q). exists x, y. repeat (split; [first [apply get_nth; assumption | eapply P, get_In; eassumption]|]). exact Q. }
  destruct o; cbn [run proper_args benign] in *;
    match type of E with un _ _ _ = _ => apply U in E as (xx & Nx & Cx & E) | bin _ _ _ _ = _ => apply V in E as (xx & yy & Nx & Ny & Cx & Cy & E) | _ => idtac end.
  - eapply new_coherent; eassumption.
  - eapply from_chunks_coherent; eassumption.
  - eapply yields_coherent; [apply zeros_yields|exact E].
  - eapply yields_coherent; [apply ones_yields|exact E].
  - injection E as <-. apply force_coherent, Cx.
  - eapply yields_coherent; [apply (pytree_yields xx Cx)|exact E].
  - eapply yields_coherent; [apply (neg_yields xx Cx)|exact E].
  - eapply (add_coherent xx yy); eauto.
  - eapply (sub_coherent xx yy); eauto.
  - eapply (bare_coherent _ xx); eauto.
  - eapply (bare_coherent _ xx); eauto.
  - eapply (scale_coherent Rmult xx); [intros; apply Rmult_0_l|eauto|exact E].
  - eapply (scale_coherent Rdiv xx); [intros; apply Rmult_0_l|eauto|exact E].
  - eapply (pow_coherent xx); eauto.
  - eapply (rechunk_coherent xx); eauto.
  - eapply (rechunk_coherent xx); eauto.
  - eapply (rechunk_coherent xx); eauto.
  - eapply yields_coherent; [apply (sort_yields xx Cx)|exact E].
  - eapply yields_coherent; [apply (ia_regroup_yields xx Cx)|exact E].
  - eapply yields_coherent; [apply (remove_zero_chunks_yields xx Cx)|exact E].
  - eapply (filter_coherent xx); eauto.
  - eapply (extend_coherent xx); eauto.
  - eapply (slice_by_mul_coherent xx); eauto.
  - eapply (slice_by_chunk_coherent xx); eauto.
  - eapply (getitem_irreps_coherent xx); eauto.
  - apply fuel_Ok in E. eapply (getslice_coherent xx); eauto.
  - apply fuel_Ok in E. destruct B as [B1 B2]. eapply (index_coherent xx); eauto.
  - eapply (reshape_coherent xx); eauto.
  - eapply (broadcast_to_coherent xx); eauto.
  - eapply (at_set_zero_coherent xx); eauto.
  - eapply (at_update_coherent _ xx _ yy); [exact Cx|exact Cy|left; reflexivity|exact E].
  - eapply (at_update_coherent _ xx _ yy); [exact Cx|exact Cy|right; reflexivity|exact E].
  - eapply (reduce_coherent _ xx); eauto.
  - apply bind_Ok in E as (xs & Ex & E). apply get_all_In in Ex. eapply concatenate_coherent; [|exact E]. eapply Forall_impl; [|exact Ex]. auto.
  - apply bind_Ok in E as (xs & Ex & E). apply get_all_In in Ex. eapply stack_coherent; [|exact E]. eapply Forall_impl; [|exact Ex]. auto.
  - eapply (where_coherent _ _ xx yy); eauto.
  - eapply (mul_to_axis_coherent xx); eauto.
  - eapply (axis_to_mul_coherent xx); eauto.
  - eapply (axis_to_irreps_coherent xx); eauto.
  - eapply (norm_coherent xx); eauto.
  - eapply (dot_coherent xx yy); eauto.
  - eapply (cross_coherent xx yy); eauto.
  - eapply (transform_coherent _ xx); eauto.
Qed.
Theorem history_coherent pool : history pool -> Forall coherent pool.
Proof.
  induction 1 as [|pool o y H IH A B E]; [constructor|]. apply Forall_app. split; [exact IH|]. constructor; [|constructor]. eapply run_coherent; eassumption.
Qed.
