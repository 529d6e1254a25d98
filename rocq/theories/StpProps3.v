(* C61, continued: when the call fails; channels; degrees; the hypotheses can be met. *)
From Coq Require Import Reals Lra Lia List Arith Bool Sorted Permutation Ascii.
From Verif Require Import PyBase PermModel PermProofs IrrepsModel IrrepsProofs IrrepsProofs2 IrrepsStr ArrayModel ArrayProofs ArrayOps LeadModel LeadProofs BlockProofs StackProofs ActProofs EquivProofs SumR EntryProofs TPModel TPProofs S2Proofs3 RotationModel CGModel WignerModel WignerProofs WignerProofs2 WignerProps RtpModel RtpSymModel RtpSpace RtpConstrain2 RtpPerm ScatterProps ArithProofs SymProofs LinearProofs RtpArr RtpMain RtpSpec RtpResult RtpProps RtpProps2 StpModel StpProofs StpProofs2 StpProps StpProps2.
From Verif Require GradProofs.
Import ListNotations.
Open Scope R_scope.

Section Props.
Variables (eigh : list (list R) -> list R * list (list R)) (eps : R).
Hypothesis Ev : eigh_correct eigh.

Definition default_array : iarray := IA [] [] (fun _ => []) None None.
Definition chosen (flag : bool) (keep : option (list irrep)) (x : irreps) (o : nat) : iarray := match symmetric_basis eigh eps (fun v => v) flag x o keep with Ok b => b | Err _ => default_array end.
(* without keep_irrep_out every call the documentation allows returns, and so do its bases *)
Theorem C61_all_kept flag orders P x : usable eps orders x -> exists U y, bases eigh eps flag orders None (irr x) U /\ stp eigh eps flag orders None P x = Ok y.
Proof.
  intros Us. pose proof Us as [Cx No Po Lx Dp Th]. exists (chosen flag None (irr x)). assert (B : bases eigh eps flag orders None (irr x) (chosen flag None (irr x))).
  { intros o Ho. destruct (C58_all_kept eigh eps Ev flag (irr x) o ltac:(lia) (Th o Ho) Dp) as (b & E & _). unfold chosen. rewrite E. reflexivity. }
  destruct (C61_value eigh eps Ev flag orders None P x _ Us B) as (y & E & _). exists y. split; [exact B|exact E].
Qed.
(* in general the call returns, or raises ValueError; it returns exactly when the basis of every order up to the largest one can be computed - also the orders
   that were not requested *)
Theorem C61_returns_iff flag orders keep P x : usable eps orders x ->
  ((exists y, stp eigh eps flag orders keep P x = Ok y) <-> forall o, (1 <= o <= top orders)%nat -> exists b, symmetric_basis eigh eps (fun v => v) flag (irr x) o keep = Ok b) /\
  ((exists y, stp eigh eps flag orders keep P x = Ok y) \/ stp eigh eps flag orders keep P x = Err ValueError).
Proof.
  intros Us. pose proof Us as [Cx No Po Lx Dp Th].
  assert (D : forall o, (1 <= o <= top orders)%nat -> (symmetric_basis eigh eps (fun v => v) flag (irr x) o keep = Ok (chosen flag keep (irr x) o) /\ of_order o (irr x) (chosen flag keep (irr x) o)) \/ symmetric_basis eigh eps (fun v => v) flag (irr x) o keep = Err ValueError).
  { intros o Ho. unfold chosen. destruct (C58_default_symmetric eigh eps Ev flag (irr x) o keep ltac:(lia) (Th o Ho) Dp) as [(b & E & Rb)|(_ & E & _)]; [|right; exact E]. left. rewrite E. split; [reflexivity|]. eapply reduced_of_order, Rb. }
  assert (A : (forall o, (1 <= o <= top orders)%nat -> symmetric_basis eigh eps (fun v => v) flag (irr x) o keep = Ok (chosen flag keep (irr x) o)) \/ exists o, (1 <= o <= top orders)%nat /\ symmetric_basis eigh eps (fun v => v) flag (irr x) o keep = Err ValueError).
  { revert D. generalize (top orders). intros M. induction M as [|M IH]; intros D; [left; intros; lia|]. destruct IH as [H|(o & Ho & E)]; [intros o Ho; apply D; lia| |right; exists o; split; [lia|exact E]]. destruct (D (S M) ltac:(lia)) as [[E _]|E]; [|right; exists (S M); split; [lia|exact E]]. left. intros o Ho. destruct (Nat.eq_dec o (S M)) as [->|N]; [exact E|apply H; lia]. }
  destruct A as [H|(o & Ho & E)].
  - destruct (C61_value eigh eps Ev flag orders keep P x (chosen flag keep (irr x)) Us H) as (y & E & _). split; [split; [intros _ o Ho; exists (chosen flag keep (irr x) o); apply H, Ho|intros _; exists y; exact E]|left; exists y; exact E].
  - assert (F : stp eigh eps flag orders keep P x = Err ValueError) by (apply (stp_err _ orders keep P x (chosen flag keep (irr x)) ValueError o); assumption). split; [|right; exact F]. split; [intros (y & Ey); congruence|intros H; destruct (H o Ho) as (b & Eb); congruence].
Qed.
(* keep_irrep_out with even irreps only, for an input of odd irreps: with the optimised bases the call fails as soon as the largest order is 3 or more,
   whatever the requested orders are *)
Definition all_odd (x : irreps) : Prop := Forall (fun m => ir_p (snd m) = Odd) x.
End Props.

Lemma bd_odd l p q : Forall (fun c => ir_p c = Odd) l -> (p < dims l)%nat -> (q < dims l)%nat -> bd inversion l p q = if (p =? q)%nat then -1 else 0.
Proof.
  intros F. revert p q. induction F as [|ir l Ei F IH]; intros p q Hp Hq; [cbn in Hp; lia|]. rewrite dims_cons in Hp, Hq. destruct (Nat.lt_ge_cases p (ir_dim ir)) as [H|H], (Nat.lt_ge_cases q (ir_dim ir)) as [H'|H'].
  - rewrite bd_low by assumption. unfold inversion. rewrite C39_inversion by assumption. rewrite Ei. unfold CGModel.mone. destruct (p =? q)%nat; ring.
  - replace q with (ir_dim ir + (q - ir_dim ir))%nat by lia. rewrite bd_low_high by exact H. destruct (Nat.eqb_spec p (ir_dim ir + (q - ir_dim ir))); [lia|reflexivity].
  - replace p with (ir_dim ir + (p - ir_dim ir))%nat by lia. rewrite bd_high_low by exact H'. destruct (Nat.eqb_spec (ir_dim ir + (p - ir_dim ir)) q); [lia|reflexivity].
  - replace p with (ir_dim ir + (p - ir_dim ir))%nat by lia. replace q with (ir_dim ir + (q - ir_dim ir))%nat by lia. rewrite bd_high, IH by lia. destruct (Nat.eqb_spec (p - ir_dim ir) (q - ir_dim ir)), (Nat.eqb_spec (ir_dim ir + (p - ir_dim ir)) (ir_dim ir + (q - ir_dim ir))); reflexivity || lia.
Qed.
Lemma Dtensor_odd x n z z' : all_odd x -> valid (repeat (dim x) n) z -> valid (repeat (dim x) n) z' -> Dtensor inversion (repeat x n) z z' = if list_eq_dec Nat.eq_dec z z' then (-1) ^ n else 0.
Proof.
  intros F. revert z z'. induction n as [|n IH]; intros z z' H H'; cbn [repeat] in *; inversion H; inversion H'; subst; [reflexivity|]. cbn [Dtensor]. rewrite IH by assumption. rewrite Dmat_bd by assumption.
  rewrite bd_odd; [|apply Forall_forall; intros c Hc; rewrite flat_mflat in Hc; apply in_flat_map in Hc as (m & Hm & Hc); apply repeat_spec in Hc; subst c; unfold all_odd in F; rewrite Forall_forall in F; apply F, Hm|rewrite dims_flat; assumption|rewrite dims_flat; assumption].
  cbn [pow]. match goal with |- (if (?a =? ?b)%nat then -1 else 0) * (if list_eq_dec Nat.eq_dec ?u ?v then _ else 0) = _ => destruct (Nat.eqb_spec a b), (list_eq_dec Nat.eq_dec u v), (list_eq_dec Nat.eq_dec (a :: u) (b :: v)) end; try ring; congruence.
Qed.
Lemma odd_even x n keep sym : Nat.Odd n -> all_odd x -> Forall (fun c => ir_p c = Even) keep -> nothing_kept (repeat x n) (Some keep) sym.
Proof.
  intros On F Ke ir t Hk _ He m z Hm V. assert (Pe : ir_p ir = Even).
  { rewrite Forall_forall in Ke. apply Ke. cbn [passes] in Hk. apply existsb_exists in Hk as (c & Hc & E). apply irrep_eqb_eq in E. subst c. exact Hc. }
  specialize (He inversion m z inversion_orthogonal Hm V). unfold turned in He. set (X := all_idx (map dim (repeat x n))) in *. assert (Hz : In z X) by (apply all_idx_valid, V). pose proof V as V'. rewrite map_repeat in V'.
  assert (S1 : (-1) ^ n = -1). { destruct On as (k & ->). rewrite pow_add, pow_mult. replace ((-1) ^ 2) with 1 by ring. rewrite pow1. ring. }
  rewrite (GradProofs.lsum_one X _ z) in He; [|apply all_idx_nodup|exact Hz|intros y Hy Ny; rewrite Dtensor_odd by (try exact F; try exact V'; rewrite <- map_repeat; apply all_idx_valid, Hy); destruct (list_eq_dec Nat.eq_dec z y); [congruence|ring]].
  rewrite Dtensor_odd in He by assumption. destruct (list_eq_dec Nat.eq_dec z z); [|contradiction]. rewrite S1 in He. rewrite (rsum_ext _ _ (fun m' => (if (m' =? m)%nat then 1 else 0) * (t m' z))) in He.
  - rewrite (rsum_delta_l _ m (fun m' => t m' z)) in He by exact Hm. lra.
  - intros m' Hm'. rewrite D_one by assumption. unfold inversion. rewrite C39_inversion by assumption. rewrite Pe. unfold CGModel.mone. destruct (m' =? m)%nat; ring.
Qed.
Lemma map_rowof (f : R -> R) : forall x F, map f (rowof x F) = rowof x (fun k u c => f (F k u c)).
Proof. induction x as [|m x IH]; intros F; [reflexivity|]. cbn [rowof]. rewrite map_app, IH, concat_map. f_equal. f_equal. unfold tab2, tab. rewrite map_map. apply map_ext. intros u. rewrite map_map. reflexivity. Qed.
Section Props2.
Variables (eigh : list (list R) -> list R * list (list R)) (eps : R).
Hypothesis Ev : eigh_correct eigh.
Theorem C61_unrequested_order_refuted orders keep P x : usable eps orders x -> (2 <= num_irreps (irr x))%nat -> all_odd (irr x) -> Forall (fun c => ir_p c = Even) keep -> (3 <= top orders)%nat ->
  stp eigh eps true orders (Some keep) P x = Err ValueError.
Proof.
  intros Us Hx Ox Ke Ht. pose proof Us as [Cx No Po Lx Dp Th]. destruct (C61_returns_iff eigh eps Ev true orders (Some keep) P x Us) as [I [H|H]]; [|exact H]. destruct (proj1 I H 3%nat ltac:(lia)) as (b & Eb). exfalso.
  assert (F : symmetric_basis eigh eps (fun v => v) true (irr x) 3 (Some keep) = Err ValueError); [|congruence]. apply (C58_fails_iff eigh eps Ev); [lia|exact Hx|apply Th; lia|]. apply odd_even; [exists 1%nat; reflexivity|exact Ox|exact Ke].
Qed.
(* the bad arguments *)
Theorem C61_rejects flag orders keep P x : (exists o, In o orders /\ o = 0%nat) \/ lead x = [] -> stp eigh eps flag orders keep P x = Err AssertionError.
Proof.
  unfold stp, stp_call. intros [(o & Ho & ->)|E].
  - assert (F : forallb (fun o => (0 <? o)%nat) orders = false); [|rewrite F; reflexivity]. apply not_true_iff_false. intros F. rewrite forallb_forall in F. specialize (F 0%nat Ho). discriminate.
  - rewrite E. destruct (forallb _ _); reflexivity.
Qed.
Theorem C61_no_orders flag keep P x : lead x <> [] -> stp eigh eps flag [] keep P x = Err ValueError.
Proof. intros H. unfold stp, stp_call. destruct (lead x); [contradiction|reflexivity]. Qed.

(* every channel has its own parameters: a channel of the output depends only on the same channel of the input, and on the column of the parameters for it *)
Theorem C61_channelwise flag orders keep P P' x x' U y y' i : usable eps orders x -> usable eps orders x' -> bases eigh eps flag orders keep (irr x) U -> irr x' = irr x ->
  stp eigh eps flag orders keep P x = Ok y -> stp eigh eps flag orders keep P' x' = Ok y' -> valid (lead x) i -> valid (lead x') i -> arr x i = arr x' i ->
  (forall nm k, P nm k (last i 0%nat) = P' nm k (last i 0%nat)) -> irr y = irr y' /\ arr y i = arr y' i.
Proof.
  intros Us Us' B Ex Ey Ey' Vi Vi' Ea EP. destruct (stp_row eigh eps Ev flag orders keep P x U Us B) as (l & Sl & Kl & z & E & Iz & Lz & Cz & Az). assert (z = y) as -> by congruence. rewrite <- Ex in B. destruct (stp_row eigh eps Ev flag orders keep P' x' U Us' B) as (l' & Sl' & Kl' & z' & E' & Iz' & Lz' & Cz' & Az'). assert (z' = y') as -> by congruence.
  assert (l' = l) as ->. { apply sorted_unique_set; [exact Sl'|exact Sl|]. intros ir. rewrite Kl', Kl. reflexivity. } split; [congruence|]. rewrite Az, Az' by assumption. apply rowof_ext. intros k u c _. apply lsum_ext. intros o _. rewrite Ea. unfold share. apply rsum_ext. intros a _. cbv zeta. destruct (irrep_eqb _ _); [|reflexivity]. f_equal. apply rsum_ext. intros j _. rewrite EP. reflexivity.
Qed.
(* with a single order o the output is homogeneous of degree o *)
Lemma monomial_scale a row z : monomial (map (Rmult a) row) z = a ^ length z * monomial row z.
Proof. unfold monomial. induction z as [|j z IH]; [cbn; ring|]. cbn [map fold_right length pow]. rewrite IH. assert (E : nth j (map (Rmult a) row) 0 = a * nth j row 0) by (replace 0 with (a * 0) at 1 by ring; apply map_nth). rewrite E. ring. Qed.
Lemma share_scale o P b a x row ch ir c : of_order o x b -> (c < ir_dim ir)%nat -> share o P b (map (Rmult a) row) ch ir c = a ^ o * share o P b row ch ir c.
Proof.
  intros (Cb & Lb & _) Hc. unfold share. rewrite <- rsum_scal. apply rsum_ext. intros k Hk. cbv zeta. destruct (nth k (irr b) (0%nat, Irrep 0 Even)) as [mul ia] eqn:Ea. cbn [fst snd]. destruct (irrep_eqb ir ia) eqn:E; [|ring]. apply irrep_eqb_eq in E. subst ia. unfold Rdiv. rewrite <- !rsum_scal_r, <- rsum_scal. apply rsum_ext. intros j Hj.
  assert (Hin : inside (irr b) k j c) by (exists mul, ir; split; [rewrite <- Ea; apply nth_error_nth', Hk|auto]). rewrite !entry_contracted by assumption. rewrite (lsum_ext _ _ (fun z => a ^ o * (entry (irr b) (arr b z) k j c * monomial row z))).
  - rewrite lsum_scal. ring.
  - intros z Hz. rewrite monomial_scale. assert (Lz : length z = o). { apply all_idx_valid in Hz. apply Forall2_length in Hz. rewrite Hz, Lb, repeat_length. reflexivity. } rewrite Lz. ring.
Qed.
Theorem C61_homogeneous flag o keep P x u U y w a : usable eps [o] x -> bases eigh eps flag [o] keep (irr x) U -> coherent u -> irr u = irr x -> lead u = lead x -> (forall i, valid (lead x) i -> arr u i = map (Rmult a) (arr x i)) ->
  stp eigh eps flag [o] keep P x = Ok y -> stp eigh eps flag [o] keep P u = Ok w -> irr w = irr y /\ forall i, valid (lead x) i -> arr w i = map (Rmult (a ^ o)) (arr y i).
Proof.
  intros Us B Cu Eu Lu Au Ey Ew. pose proof Us as [Cx No Po Lx Dp Th]. assert (Usu : usable eps [o] u) by (constructor; rewrite ?Eu, ?Lu; assumption). assert (To : top [o] = o) by (cbn; lia).
  destruct (stp_row eigh eps Ev flag [o] keep P x U Us B) as (l & Sl & Kl & z & E & Iz & Lz & Cz & Az). assert (z = y) as -> by congruence. rewrite <- Eu in B. destruct (stp_row eigh eps Ev flag [o] keep P u U Usu B) as (l' & Sl' & Kl' & z' & E' & Iz' & Lz' & Cz' & Az'). assert (z' = w) as -> by congruence.
  assert (l' = l) as ->. { apply sorted_unique_set; [exact Sl'|exact Sl|]. intros ir. rewrite Kl', Kl. reflexivity. } split; [congruence|]. intros i Vi. rewrite Az by exact Vi. rewrite Az' by (rewrite Lu; exact Vi). rewrite Au by exact Vi. rewrite map_rowof. apply rowof_ext. intros k v c (m & ir & En & Hv & Hc). unfold out_irreps in En. rewrite nth_error_map in En. destruct (nth_error l k) eqn:Ek; [|discriminate]. cbn in En. injection En as <- ->. rewrite (nth_error_nth _ _ _ Ek).
  change (nodup Nat.eq_dec [o]) with [o]. rewrite !lsum_cons. cbn [lsum fold_right]. rewrite (share_scale o P (U o) a (irr x)); [ring| |exact Hc]. rewrite Eu in B. eapply reduced_of_order, (bases_reduced eigh eps Ev flag [o]); try eassumption. rewrite To. specialize (Po o (or_introl eq_refl)). lia.
Qed.
End Props2.

(* ---------- the hypotheses can be met ---------- *)
Definition one_channel (x : irreps) (row : list R) : iarray := IA x [1%nat] (fun _ => row) None None.
Lemma one_channel_coherent x row : length row = dim x -> coherent (one_channel x row).
Proof. intros L. split; [intros i _; exact L|split; [apply flags_false|exact Logic.I]]. Qed.
Lemma odd_pair r : orthogonal3 r -> exists d, d * d = 1 /\ forall p, (p < 2)%nat -> Dmat r [(2%nat, Irrep 0 Odd)] p 0%nat = if (p =? 0)%nat then d else 0.
Proof.
  intros O. exists (D_from_matrix r (Irrep 0 Odd) 0%nat 0%nat). assert (Z : (0 < ir_dim (Irrep 0 Odd))%nat) by (cbn; lia). split.
  - destruct (C39_orthogonal r (Irrep 0 Odd) 0%nat 0%nat O Z Z) as [_ E]. unfold CGModel.mmul, CGModel.mone in E. change (ir_dim (Irrep 0 Odd)) with 1%nat in E. cbn [rsum Nat.eqb] in E. lra.
  - intros p Hp. rewrite Dmat_bd by (cbn; lia). change (flat [(2%nat, Irrep 0 Odd)]) with [Irrep 0 Odd; Irrep 0 Odd]. destruct p as [|[|p]]; [|reflexivity|lia]. rewrite bd_low by assumption. reflexivity.
Qed.
(* the largest order alone would have been fine: 0e occurs in the fourth symmetric power of 2x0o *)
Example C61_order_4_fine eigh : eigh_correct eigh -> exists b, symmetric_basis eigh (1 / 1000) (fun v => v) true [(2%nat, Irrep 0 Odd)] 4 (Some [Irrep 0 Even]) = Ok b /\ irr b <> [].
Proof.
  intros Ev. set (x := [(2%nat, Irrep 0 Odd)]). assert (Th : threshold_ok (1 / 1000) (repeat x 4)) by (split; [lra|]; change (prod (map dim (repeat x 4))) with 16%nat; cbn [INR]; lra).
  set (o4 := [0; 0; 0; 0]%nat). set (t := fun (_ : nat) (z : idx) => if list_eq_dec Nat.eq_dec z o4 then 1 else 0). assert (V4 : valid (map dim (repeat x 4)) o4) by (cbn; repeat constructor).
  assert (N : ~ nothing_kept (repeat x 4) (Some [Irrep 0 Even]) (symmetric_tensor x 4)).
  { intros N. assert (E : t 0%nat o4 = 0); [|unfold t in E; destruct (list_eq_dec Nat.eq_dec o4 o4); [lra|contradiction]]. apply (N (Irrep 0 Even) t eq_refl); [| |cbn; lia|exact V4].
    - intros m _ p z Hp Lp V. unfold t. assert (Q : permute z p = o4 <-> z = o4); [|destruct (list_eq_dec Nat.eq_dec (permute z p) o4), (list_eq_dec Nat.eq_dec z o4); tauto].
      pose proof (Forall2_length _ _ _ V) as Lz. rewrite repeat_length in Lz. split; intros E.
      + apply (nth_ext _ _ 0%nat 0%nat); [exact Lz|]. intros k Hk. assert (Hin : In k p) by (apply (perm_In p k Hp); lia). assert (In (nth k z 0%nat) (permute z p)) as H by (unfold permute; apply (in_map (fun i => nth i z 0%nat)), Hin). rewrite E in H. assert (nth k z 0 = 0)%nat as -> by (cbn in H; intuition). symmetry. apply (nth_repeat 0%nat 4 k).
      + rewrite E. unfold permute. destruct p as [|p1 [|p2 [|p3 [|p4 [|]]]]]; try discriminate. cbn [map]. assert (Q : forall k, nth k o4 0%nat = 0%nat) by (intros k; apply (nth_repeat 0%nat 4 k)). rewrite !Q. reflexivity.
    - intros r m z O Hm V. assert (m = 0)%nat as -> by (cbn in Hm; lia). unfold turned. rewrite (GradProofs.lsum_one _ _ o4); [|apply all_idx_nodup|apply all_idx_valid, V4|intros y _ Ny; unfold t; destruct (list_eq_dec Nat.eq_dec y o4); [contradiction|ring]].
      unfold t at 1. destruct (list_eq_dec Nat.eq_dec o4 o4) as [_|C]; [|contradiction]. change (ir_dim (Irrep 0 Even)) with 1%nat. cbn [rsum]. rewrite D_one by (cbn; lia). 
      assert (E1 : D_from_matrix r (Irrep 0 Even) 0%nat 0%nat = 1). { pose proof (rep_of_scalar r O) as E. unfold scalar_trivial in E. assert (Q : mat_at (rep_of r (Irrep 0 Even)) 0 0 = 1) by (rewrite E; reflexivity). unfold rep_of in Q. rewrite as_rep_at in Q by (cbn; lia). exact Q. }
      rewrite E1. cbn [repeat map] in V. inversion V as [|p1 ? z1 ? H1 V1]; subst. inversion V1 as [|p2 ? z2 ? H2 V2]; subst. inversion V2 as [|p3 ? z3 ? H3 V3]; subst. inversion V3 as [|p4 ? z4 ? H4 V5]; subst. inversion V5; subst. change (dim x) with 2%nat in *. cbn [repeat Dtensor o4].
      destruct (odd_pair r O) as (d & Sd & Ed). fold x in Ed. rewrite !Ed by assumption. unfold t. destruct p1 as [|[|p1]]; [| |lia]; (destruct p2 as [|[|p2]]; [| |lia]); (destruct p3 as [|[|p3]]; [| |lia]); (destruct p4 as [|[|p4]]; [| |lia]); cbn [Nat.eqb]; destruct (list_eq_dec Nat.eq_dec _ o4) as [Q|Q]; try discriminate Q; try (contradiction Q; reflexivity); try ring.
      transitivity ((d * d) * (d * d)); [ring|rewrite Sd; ring]. }
  destruct (C58_default_symmetric eigh (1 / 1000) Ev true x 4 (Some [Irrep 0 Even]) ltac:(lia) Th ltac:(cbn; lia)) as [(b & E & Rb)|(_ & _ & C)]; [|contradiction]. exists b. split; [exact E|]. intros Ib. apply N. intros ir s Hk Hs Hm m z Hmm V. rewrite <- (rb_complete _ _ _ _ Rb ir s Hk Hs Hm m z Hmm V). unfold projected. rewrite Ib. reflexivity.
Qed.
(* 0e+1o with orders 1 and 2 (one channel): the call returns; 2x0o with order 4, 0e kept: it raises *)
Example C61_nonvacuous : exists eigh, eigh_correct eigh /\
  (let x := one_channel [(1%nat, Irrep 0 Even); (1%nat, Irrep 1 Odd)] [1; 2; 3; 4] in usable (1 / 1000) [1; 2]%nat x /\
     exists U y, bases eigh (1 / 1000) true [1; 2]%nat None (irr x) U /\ stp eigh (1 / 1000) true [1; 2]%nat None (fun _ _ _ => 1) x = Ok y) /\
  (let x := one_channel [(2%nat, Irrep 0 Odd)] [1; 2] in usable (1 / 1000) [4]%nat x /\ stp eigh (1 / 1000) true [4]%nat (Some [Irrep 0 Even]) (fun _ _ _ => 1) x = Err ValueError).
Proof.
  destruct C58_eigh_exists as [eigh Ev]. exists eigh. split; [exact Ev|]. split.
  - cbv zeta. set (x := one_channel _ _). assert (Us : usable (1 / 1000) [1; 2]%nat x).
    { constructor; [apply one_channel_coherent; reflexivity|discriminate|intros o [<-|[<-|[]]]; lia|discriminate|cbn; lia|]. intros o Ho. assert (Ho' : o = 1%nat \/ o = 2%nat) by (cbn in Ho; lia). split; [lra|]. destruct Ho' as [->| ->]; [change (prod (map dim (repeat (irr x) 1))) with 4%nat|change (prod (map dim (repeat (irr x) 2))) with 16%nat]; cbn [INR]; lra. }
    split; [exact Us|]. apply (C61_all_kept eigh (1 / 1000) Ev true [1; 2]%nat _ x Us).
  - cbv zeta. set (x := one_channel _ _). assert (Us : usable (1 / 1000) [4]%nat x).
    { constructor; [apply one_channel_coherent; reflexivity|discriminate|intros o [<-|[]]; lia|discriminate|cbn; lia|]. intros o Ho. assert (Ho' : (o = 1 \/ o = 2 \/ o = 3 \/ o = 4)%nat) by (cbn in Ho; lia). split; [lra|]. destruct Ho' as [->|[->|[->| ->]]]; match goal with |- context [prod ?l] => let v := eval vm_compute in (prod l) in change (prod l) with v end; cbn [INR]; lra. }
    split; [exact Us|]. apply (C61_unrequested_order_refuted eigh (1 / 1000) Ev [4]%nat); [exact Us|cbn; lia|repeat constructor|repeat constructor|cbn; lia].
Qed.
