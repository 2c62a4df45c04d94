(** C87-C89: what the plots show. *)
From Coq Require Import Reals Lra Lia List ZArith Arith Bool String.
From Coquelicot Require Import Coquelicot.
From Verif Require Import Base Linear Spec MCore MSim PCore PSim PEx PropsCore PropsSolve PropsLin PropsNl PropsIter MFilter PFilter PTanh PropsFilter MOpt MPlot PDiff PGrad PExOpt PropsGrad POpt PropsOpt PropsOpt2 PropsOpt3.
Import ListNotations.

(* ------------------------------------------------------------------ *)
(** * C87: pictures *)

(** A picture with [Nx] columns and [t] copies of the [Ny] rows on top of each other: the value
    of pixel (i,j) is in column i and in rows j, Ny+j, 2Ny+j, ... (counted from below). *)
Definition shows (a : nd R) (Nx Ny t : nat) (f : nat -> nat -> R) : Prop :=
  nd_ny a = Nx /\ nd_nx a = (t * Ny)%nat /\
  forall i j q, (i < Nx)%nat -> (j < Ny)%nat -> (q < t)%nat -> nd_at a (q * Ny + j) i = f i j.
(** the colour scale [lo,hi] covers the values of the picture and [hi] is one of the
    moduli, i.e. the scale is as small as possible *)
Definition covers (a : nd R) (lo hi : R) : Prop :=
  forall r c, (r < nd_nx a)%nat -> (c < nd_ny a)%nat -> (lo <= nd_at a r c <= hi)%R.
Definition attained (f : nat -> nat -> R) (Nx Ny : nat) (v : R) : Prop :=
  exists i j, (i < Nx)%nat /\ (j < Ny)%nat /\ f i j = v.
(** the largest value of f on the grid *)
Definition largest (f : nat -> nat -> R) (Nx Ny : nat) (v : R) : Prop :=
  attained f Nx Ny v /\ forall i j, (i < Nx)%nat -> (j < Ny)%nat -> (f i j <= v)%R.

Lemma row_col (m k j : nat) : (j < m)%nat -> ((k * m + j) / m = k /\ (k * m + j) mod m = j)%nat.
Proof.
  intro H. split.
  - rewrite Nat.div_add_l by lia. rewrite (Nat.div_small j m H). lia.
  - rewrite Nat.add_comm, Nat.mod_add by lia. apply Nat.mod_small; exact H.
Qed.
Lemma nd_T_at {T} (a : nd T) r c : (c < nd_nx a)%nat -> nd_at (nd_T a) r c = nd_at a c r.
Proof.
  intro H. unfold nd_T. unfold nd_at at 1. cbn [nd_buf nd_ny].
  destruct (row_col (nd_nx a) r c H) as [-> ->]. reflexivity.
Qed.
Lemma nd_map_at {T U} (f : T -> U) (a : nd T) i j : nd_at (nd_map f a) i j = f (nd_at a i j).
Proof. reflexivity. Qed.
Lemma tile_at {T} t (a : nd T) b i j q : nd_tile t a = Ok b -> (j < nd_ny a)%nat -> (q < t)%nat ->
  nd_nx b = nd_nx a /\ nd_ny b = (t * nd_ny a)%nat /\ nd_at b i (q * nd_ny a + j) = nd_at a i j.
Proof.
  unfold nd_tile. destruct t as [|t]; [discriminate|]. intros H Hj Hq. injection H as <-. cbn [nd_nx nd_ny].
  split; [reflexivity|]. split; [reflexivity|]. unfold nd_at at 1. cbn [nd_buf nd_ny].
  assert (Hb: (q * nd_ny a + j < S t * nd_ny a)%nat) by nia.
  destruct (row_col (S t * nd_ny a) i (q * nd_ny a + j) Hb) as [E1 E2].
  cbn [Nat.mul] in E1, E2 |- *. rewrite E1, E2.
  destruct (row_col (nd_ny a) q j Hj) as [_ ->]. reflexivity.
Qed.
Lemma tile_ok {T} t (a : nd T) : (0 < t)%nat -> exists b, nd_tile t a = Ok b.
Proof. destruct t; [lia|]. intros _. eexists; reflexivity. Qed.
Lemma tile_dims {T} t (a : nd T) b : nd_tile t a = Ok b -> nd_nx b = nd_nx a /\ nd_ny b = (t * nd_ny a)%nat.
Proof. destruct t; [discriminate|]. intro H; injection H as <-. split; reflexivity. Qed.
(** the transposed, tiled array shows the original one *)
Lemma tile_shows t (a : nd R) b Nx Ny : nd_nx a = Nx -> nd_ny a = Ny -> nd_tile t a = Ok b -> shows (nd_T b) Nx Ny t (nd_at a).
Proof.
  intros <- <- H. destruct (tile_dims _ _ _ H) as [D1 D2].
  split; [exact D1|]. split; [exact D2|]. intros i j q Hi Hj Hq. rewrite nd_T_at by (rewrite D1; exact Hi).
  apply (tile_at t a b i j q H Hj Hq).
Qed.
(** every entry of a tiled array is an entry of the original one *)
Lemma tile_entry {T} t (a : nd T) b k : nd_tile t a = Ok b -> (k < nd_size b)%nat ->
  exists i j, (i < nd_nx a)%nat /\ (j < nd_ny a)%nat /\ nd_buf b k = nd_at a i j.
Proof.
  destruct t; [discriminate|]. unfold nd_tile. intro H; injection H as <-. unfold nd_size. cbn [nd_nx nd_ny nd_buf]. intro Hk.
  assert (Hy: nd_ny a <> O) by (intro E; rewrite E in Hk; nia).
  exists (k / (S t * nd_ny a))%nat, (k mod (S t * nd_ny a) mod nd_ny a)%nat.
  split; [apply Nat.div_lt_upper_bound; nia|]. split; [apply Nat.mod_upper_bound; exact Hy|reflexivity].
Qed.
Lemma at_buf {T} (a : nd T) r c : (r < nd_nx a)%nat -> (c < nd_ny a)%nat -> exists k, (k < nd_size a)%nat /\ nd_at a r c = nd_buf a k.
Proof. intros Hr Hc. exists (r * nd_ny a + c)%nat. split; [unfold nd_size; nia|reflexivity]. Qed.
Lemma nd_max_spec (a : nd R) : (0 < nd_size a)%nat -> exists v, nd_max a = Ok v /\
  (forall k, (k < nd_size a)%nat -> (nd_buf a k <= v)%R) /\ exists k, (k < nd_size a)%nat /\ nd_buf a k = v.
Proof.
  intro H. unfold nd_max. destruct (nd_size a) as [|n] eqn:E; [lia|]. eexists. split; [reflexivity|].
  destruct (rmax_spec (S n) (nd_buf a) ltac:(lia)) as [(i & Hi & Ei) HB]. split; [exact HB|]. exists i. split; [exact Hi|symmetry; exact Ei].
Qed.
Lemma nd_min_spec (a : nd R) : (0 < nd_size a)%nat -> exists v, nd_min a = Ok v /\
  (forall k, (k < nd_size a)%nat -> (v <= nd_buf a k)%R) /\ exists k, (k < nd_size a)%nat /\ nd_buf a k = v.
Proof.
  intro H. unfold nd_min. destruct (nd_size a) as [|n] eqn:E; [lia|]. eexists. split; [reflexivity|].
  destruct (rmax_spec (S n) (fun k => - nd_buf a k)%R ltac:(lia)) as [(i & Hi & Ei) HB]. split.
  - intros k Hk. specialize (HB k Hk). cbv beta in HB. lra.
  - exists i. split; [exact Hi|]. rewrite Ei. lra.
Qed.
(** limits of a tiled array in terms of the original one *)
Lemma tile_max t (a : nd R) b g : (0 < t)%nat -> (0 < nd_size a)%nat -> nd_tile t a = Ok b ->
  exists v, nd_max (nd_map g b) = Ok v /\ attained (fun i j => g (nd_at a i j)) (nd_nx a) (nd_ny a) v /\
    forall k, (k < nd_size b)%nat -> (g (nd_buf b k) <= v)%R.
Proof.
  intros Ht Ha H. destruct (tile_dims _ _ _ H) as [D1 D2].
  assert (Hb: (0 < nd_size (nd_map g b))%nat). { unfold nd_size in *. cbn [nd_map nd_nx nd_ny]. rewrite D1, D2. nia. }
  destruct (nd_max_spec _ Hb) as (v & Hv & HB & k & Hk & Ek). exists v. split; [exact Hv|]. split; [|exact HB].
  destruct (tile_entry t a b k H Hk) as (i & j & Hi & Hj & E). exists i, j. split; [exact Hi|]. split; [exact Hj|].
  rewrite <- E. exact Ek.
Qed.
Lemma covers_T (b : nd R) lo hi : (forall k, (k < nd_size b)%nat -> (lo <= nd_buf b k <= hi)%R) -> covers (nd_T b) lo hi.
Proof.
  intros H r c Hr Hc. unfold nd_T in Hr, Hc. cbn [nd_nx nd_ny] in Hr, Hc. rewrite nd_T_at by exact Hc.
  destruct (at_buf b c r Hc Hr) as (k & Hk & ->). apply H, Hk.
Qed.
Lemma nd_max_id (a : nd R) : nd_max a = nd_max (nd_map (fun x => x) a).
Proof. reflexivity. Qed.

(** a simulation whose permittivity has the shape of the grid (every reachable one,
    [reachable_consistent]) *)
Definition shaped (s : sim) : Prop :=
  nd_nx (s_eps s) = s_Nx s /\ nd_ny (s_eps s) = s_Ny s /\ (0 < s_Nx s)%nat /\ (0 < s_Ny s)%nat.
(** the value of a field vector at pixel (i,j) *)
Definition fld (s : sim) (F : vec) (i j : nat) : C := F (pix (s_Ny s) i j).
Definition eps_at (s : sim) (i j : nat) : R := nd_buf (s_eps s) (pix (s_Ny s) i j).

Lemma outline_shows s t eps (outline : bool) : shaped s -> nd_tile t (s_eps s) = Ok eps ->
  match (if outline then Some (nd_T (nd_map Rabs eps)) else None) with
  | Some a => outline = true /\ shows a (s_Nx s) (s_Ny s) t (fun i j => Rabs (eps_at s i j))
  | None => outline = false
  end.
Proof.
  intros (E1 & E2 & _) H. destruct outline; [split|]; try reflexivity.
  destruct (tile_shows t _ _ _ _ E1 E2 H) as (S1 & S2 & S3). split; [exact S1|]. split; [exact S2|].
  intros i j q Hi Hj Hq. specialize (S3 i j q Hi Hj Hq).
  assert (X: nd_at (nd_T (nd_map Rabs eps)) (q * s_Ny s + j) i = Rabs (nd_at (nd_T eps) (q * s_Ny s + j) i)) by reflexivity.
  rewrite X, S3. unfold eps_at, pix, nd_at. rewrite E2. reflexivity.
Qed.
(** the outline drawn is the modulus of the permittivity *)
Definition outlines (s : sim) (t : nat) (outline : bool) (p : picture) : Prop :=
  match pc_outline p with
  | Some a => outline = true /\ shows a (s_Nx s) (s_Ny s) t (fun i j => Rabs (eps_at s i j))
  | None => outline = false
  end.

(** plt_abs(nl, outline, vmin, vmax, tiled_y): the modulus of the linear or nonlinear field;
    limits given by the user are used, the default ones are 0 and the largest modulus *)
Theorem C87_plt_abs : forall s nl outline vmin vmax t F F0, shaped s -> (0 < t)%nat ->
  s_fields s (pol_comp (s_pol s)) = Some F0 -> s_field s nl = Some F ->
  exists p, plt_abs nl outline vmin vmax t s = Ok p /\
    shows (pc_data p) (s_Nx s) (s_Ny s) t (fun i j => Cmod (fld s F i j)) /\
    outlines s t outline p /\
    (forall v, vmin = Some v -> pc_vmin p = v) /\ (forall v, vmax = Some v -> pc_vmax p = v) /\
    (vmin = None -> pc_vmin p = 0%R) /\
    (vmax = None -> largest (fun i j => Cmod (fld s F i j)) (s_Nx s) (s_Ny s) (pc_vmax p)) /\
    (vmin = None -> vmax = None -> covers (pc_data p) (pc_vmin p) (pc_vmax p)).
Proof.
  intros s nl outline vmin vmax t F F0 HS Ht H0 HF. pose proof HS as (_ & _ & HX & HY). unfold plt_abs. unfold s_field at 1. rewrite H0.
  destruct (tile_ok t (s_eps s) Ht) as [eps He]. rewrite He. cbn [rbind]. rewrite HF.
  destruct (tile_ok t (nd_map Cmod (s_arr s F)) Ht) as [fv Hfv]. rewrite Hfv. cbn [rbind].
  assert (HM: exists v, nd_max fv = Ok v /\ attained (fun i j => Cmod (fld s F i j)) (s_Nx s) (s_Ny s) v /\ forall k, (k < nd_size fv)%nat -> (nd_buf fv k <= v)%R).
  { apply (tile_max t (nd_map Cmod (s_arr s F)) fv (fun x => x) Ht); [unfold nd_size; cbn; nia|exact Hfv]. }
  destruct HM as (v & Hv & HA & HB).
  set (hi := match vmax with Some x => x | None => v end).
  exists (plt_base fv (nd_map Rabs eps) (match vmin with Some x => x | None => 0%R end) hi outline).
  split. { unfold hi. destruct vmax; [reflexivity|]. rewrite Hv. reflexivity. }
  split. { apply (tile_shows t (nd_map Cmod (s_arr s F)) fv (s_Nx s) (s_Ny s) eq_refl eq_refl Hfv). }
  split. { apply (outline_shows s t eps outline HS He). }
  cbn [plt_base pc_vmin pc_vmax pc_data]. unfold hi.
  split; [intros x ->; reflexivity|]. split; [intros x ->; reflexivity|]. split; [intros ->; reflexivity|].
  split.
  { intros ->. split; [exact HA|]. intros i j Hi Hj. destruct (tile_at t (nd_map Cmod (s_arr s F)) fv i j 0 Hfv Hj Ht) as (D1 & D2 & E). cbn [Nat.mul Nat.add] in E.
    change (Cmod (fld s F i j)) with (nd_at (nd_map Cmod (s_arr s F)) i j). rewrite <- E. apply HB. unfold nd_size. rewrite D1, D2. cbn [nd_map nd_nx nd_ny s_arr]. assert (j < t * s_Ny s)%nat by nia. nia. }
  intros -> ->. apply covers_T. intros k Hk. split; [|apply HB, Hk].
  destruct (tile_entry t _ fv k Hfv Hk) as (i & j & _ & _ & ->). rewrite nd_map_at. apply Cmod_ge_0.
Qed.

(** plt_re: the real part, on the symmetric scale that just covers it *)
Theorem C87_plt_re : forall s nl outline t F F0, shaped s -> (0 < t)%nat ->
  s_fields s (pol_comp (s_pol s)) = Some F0 -> s_field s nl = Some F ->
  exists p, plt_re nl outline t s = Ok p /\
    shows (pc_data p) (s_Nx s) (s_Ny s) t (fun i j => Re (fld s F i j)) /\
    outlines s t outline p /\ pc_vmin p = (- pc_vmax p)%R /\
    attained (fun i j => Rabs (Re (fld s F i j))) (s_Nx s) (s_Ny s) (pc_vmax p) /\
    covers (pc_data p) (pc_vmin p) (pc_vmax p).
Proof.
  intros s nl outline t F F0 HS Ht H0 HF. pose proof HS as (_ & _ & HX & HY). unfold plt_re.
  destruct (tile_ok t (s_eps s) Ht) as [eps He]. rewrite He. cbn [rbind]. unfold s_field at 1. rewrite H0, HF.
  destruct (tile_ok t (nd_map Re (s_arr s F)) Ht) as [fv Hfv]. rewrite Hfv. cbn [rbind].
  destruct (tile_max t (nd_map Re (s_arr s F)) fv Rabs Ht ltac:(unfold nd_size; cbn; nia) Hfv) as (v & Hv & HA & HB).
  rewrite Hv. cbn [rbind]. eexists. split; [reflexivity|].
  split. { apply (tile_shows t (nd_map Re (s_arr s F)) fv (s_Nx s) (s_Ny s) eq_refl eq_refl Hfv). }
  split. { apply (outline_shows s t eps outline HS He). }
  cbn [plt_base pc_vmin pc_vmax pc_data]. split; [reflexivity|]. split; [exact HA|].
  apply covers_T. intros k Hk. specialize (HB k Hk). apply Rabs_le_between. exact HB.
Qed.

(** plt_eps: the modulus of the permittivity, on the scale from its smallest to its largest
    value *)
Theorem C87_plt_eps : forall s outline t, shaped s -> (0 < t)%nat ->
  exists p, plt_eps outline t s = Ok p /\
    shows (pc_data p) (s_Nx s) (s_Ny s) t (fun i j => Rabs (eps_at s i j)) /\
    outlines s t outline p /\
    attained (fun i j => Rabs (eps_at s i j)) (s_Nx s) (s_Ny s) (pc_vmin p) /\
    attained (fun i j => Rabs (eps_at s i j)) (s_Nx s) (s_Ny s) (pc_vmax p) /\
    covers (pc_data p) (pc_vmin p) (pc_vmax p).
Proof.
  intros s outline t HS Ht. pose proof HS as (E1 & E2 & HX & HY). unfold plt_eps.
  destruct (tile_ok t (s_eps s) Ht) as [eps He]. rewrite He. cbn [rbind].
  assert (HZ: (0 < nd_size (s_eps s))%nat) by (unfold nd_size; nia).
  destruct (tile_max t (s_eps s) eps Rabs Ht HZ He) as (v & Hv & HA & HB).
  destruct (tile_dims _ _ _ He) as [D1 D2].
  assert (HZ2: (0 < nd_size (nd_map Rabs eps))%nat) by (unfold nd_size; cbn [nd_map nd_nx nd_ny]; rewrite D1, D2; nia).
  destruct (nd_min_spec _ HZ2) as (u & Hu & HC & k & Hk & Ek).
  rewrite Hu, Hv. cbn [rbind]. eexists. split; [reflexivity|].
  assert (XT: forall i j, nd_at (s_eps s) i j = eps_at s i j). { intros. unfold nd_at, eps_at, pix. rewrite E2. reflexivity. }
  split. { apply (outline_shows s t eps true HS He). }
  split. { apply (outline_shows s t eps outline HS He). }
  cbn [plt_base pc_vmin pc_vmax pc_data].
  split. { destruct (tile_entry t _ _ k He Hk) as (i & j & Hi & Hj & E). exists i, j. rewrite <- E1, <- E2. split; [exact Hi|]. split; [exact Hj|]. rewrite <- XT, <- E. exact Ek. }
  split. { destruct HA as (i & j & Hi & Hj & E). exists i, j. rewrite <- E1, <- E2. split; [exact Hi|]. split; [exact Hj|]. rewrite <- XT. exact E. }
  apply covers_T. intros q Hq. split; [apply HC, Hq|apply HB, Hq].
Qed.

(** plt_diff: the difference of the moduli of the linear and the nonlinear field, divided by
    the largest linear modulus when normalize is set; the scale is symmetric *)
Theorem C87_plt_diff : forall s outline vmax t (normalize : bool) F G, shaped s -> (0 < t)%nat ->
  s_fields s (pol_comp (s_pol s)) = Some F -> s_fields_nl s (pol_comp (s_pol s)) = Some G ->
  (normalize = true -> exists i j, (i < s_Nx s)%nat /\ (j < s_Ny s)%nat /\ fld s F i j <> RtoC 0) ->
  exists p m, plt_diff outline vmax t normalize s = Ok p /\
    (normalize = false -> m = 1%R) /\
    (normalize = true -> (0 < m)%R /\ attained (fun i j => Cmod (fld s F i j)) (s_Nx s) (s_Ny s) m /\
                         forall i j, (i < s_Nx s)%nat -> (j < s_Ny s)%nat -> (Cmod (fld s F i j) <= m)%R) /\
    shows (pc_data p) (s_Nx s) (s_Ny s) t (fun i j => (Cmod (fld s F i j) - Cmod (fld s G i j)) / m)%R /\
    outlines s t outline p /\ pc_vmin p = (- pc_vmax p)%R /\
    (forall v, vmax = Some v -> pc_vmax p = v) /\
    (vmax = None -> attained (fun i j => Rabs ((Cmod (fld s F i j) - Cmod (fld s G i j)) / m)) (s_Nx s) (s_Ny s) (pc_vmax p) /\
                    covers (pc_data p) (pc_vmin p) (pc_vmax p)).
Proof.
  intros s outline vmax t normalize F G HS Ht HF HG Hn. pose proof HS as (_ & _ & HX & HY). unfold plt_diff.
  destruct (tile_ok t (s_eps s) Ht) as [eps He]. rewrite He. cbn [rbind]. unfold s_field. rewrite HF, HG.
  destruct (tile_ok t (nd_map Cmod (s_arr s F)) Ht) as [fl Hfl]. destruct (tile_ok t (nd_map Cmod (s_arr s G)) Ht) as [fn Hfn].
  rewrite Hfl, Hfn. cbn [rbind].
  destruct (tile_max t (nd_map Cmod (s_arr s F)) fl Rabs Ht ltac:(unfold nd_size; cbn; nia) Hfl) as (M & HM & HA & HB).
  assert (HAm: attained (fun i j => Cmod (fld s F i j)) (s_Nx s) (s_Ny s) M).
  { destruct HA as (i & j & Hi & Hj & E). exists i, j. split; [exact Hi|]. split; [exact Hj|]. cbv beta in E. rewrite nd_map_at, Rabs_pos_eq in E by apply Cmod_ge_0. exact E. }
  assert (HBm: forall i j, (i < s_Nx s)%nat -> (j < s_Ny s)%nat -> (Cmod (fld s F i j) <= M)%R).
  { intros i j Hi Hj. destruct (tile_at t _ fl i j 0 Hfl Hj Ht) as (D1 & D2 & E).
    destruct (at_buf fl i (0 * nd_ny (nd_map Cmod (s_arr s F)) + j)) as (k & Hk & Ek); [rewrite D1; exact Hi|rewrite D2; cbn [nd_map nd_ny s_arr] in *; nia|].
    specialize (HB k Hk). rewrite <- Ek, E in HB. rewrite nd_map_at, Rabs_pos_eq in HB by apply Cmod_ge_0. exact HB. }
  set (m := if normalize then M else 1%R).
  set (d0 := mkNd (nd_nx fl) (nd_ny fl) (fun k => (nd_buf fl k - nd_buf fn k)%R)).
  set (a0 := mkNd (s_Nx s) (s_Ny s) (fun k => (Cmod (F k) - Cmod (G k)) / m)%R).
  assert (HT: exists d, nd_tile t a0 = Ok d /\ nd_nx d = nd_nx fl /\ nd_ny d = nd_ny fl /\ forall k, nd_buf d k = ((nd_buf fl k - nd_buf fn k) / m)%R).
  { destruct t as [|t']; [lia|]. unfold nd_tile in Hfl, Hfn |- *. injection Hfl as <-. injection Hfn as <-. eexists. split; [reflexivity|]. split; [reflexivity|]. split; reflexivity. }
  destruct HT as (d & Hd & D1 & D2 & D3).
  assert (Hm: normalize = true -> (0 < M)%R).
  { intro E. destruct (Hn E) as (i & j & Hi & Hj & Hne). eapply Rlt_le_trans; [apply Cmod_gt_0, Hne|apply HBm; assumption]. }
  assert (HD: exists d1, (if normalize then rbind (nd_max (nd_map Rabs fl)) (fun m => if Req_EM_T m 0 then Raise NotRepresentable else Ok (nd_map (fun x => x / m)%R d0)) else Ok d0) = Ok d1
            /\ nd_nx d1 = nd_nx d /\ nd_ny d1 = nd_ny d /\ forall k, nd_buf d1 k = nd_buf d k).
  { unfold m in D3. destruct normalize.
    - rewrite HM. cbn [rbind]. destruct (Req_EM_T M 0) as [E|_]; [specialize (Hm eq_refl); lra|].
      eexists. split; [reflexivity|]. cbn [nd_map nd_nx nd_ny nd_buf d0]. split; [congruence|]. split; [congruence|]. intro k. rewrite D3. reflexivity.
    - eexists. split; [reflexivity|]. cbn [d0 nd_nx nd_ny nd_buf]. split; [congruence|]. split; [congruence|]. intro k. rewrite D3. field. }
  destruct HD as (d1 & -> & N1 & N2 & N3). cbn [rbind].
  destruct (tile_max t a0 d Rabs Ht ltac:(unfold nd_size; cbn; nia) Hd) as (v & Hv & HVA & HVB).
  assert (Hv1: nd_max (nd_map Rabs d1) = Ok v).
  { rewrite <- Hv. unfold nd_max, nd_size. cbn [nd_map nd_nx nd_ny nd_buf]. rewrite N1, N2.
    destruct (nd_nx d * nd_ny d)%nat as [|n]; [reflexivity|]. f_equal. clear - N3. induction n as [|n IH]; [cbn; rewrite N3; reflexivity|].
    change (Rmax (rmax (S n) (fun k => Rabs (nd_buf d1 k))) (Rabs (nd_buf d1 (S n))) = Rmax (rmax (S n) (fun k => Rabs (nd_buf d k))) (Rabs (nd_buf d (S n)))).
    rewrite IH, N3. reflexivity. }
  set (hi := match vmax with Some x => x | None => v end).
  exists (plt_base d1 (nd_map Rabs eps) (- hi) hi outline), m.
  split. { unfold hi. destruct vmax; [reflexivity|]. rewrite Hv1. reflexivity. }
  split. { unfold m. intros ->. reflexivity. }
  split. { unfold m. intro E. rewrite E. split; [apply Hm, E|]. split; [exact HAm|exact HBm]. }
  split. { destruct (tile_shows t a0 d (s_Nx s) (s_Ny s) eq_refl eq_refl Hd) as (S1 & S2 & S3).
    cbn [plt_base pc_data]. split; [cbn; rewrite N1; exact S1|]. split; [cbn; rewrite N2; exact S2|]. intros i j q Hi Hj Hq.
    specialize (S3 i j q Hi Hj Hq). cbn [nd_T nd_ny] in S1. rewrite nd_T_at in S3 |- * by (rewrite ?N1, S1; exact Hi).
    unfold nd_at at 1. rewrite N3, N2. exact S3. }
  split. { apply (outline_shows s t eps outline HS He). }
  cbn [plt_base pc_vmin pc_vmax pc_data]. unfold hi. split; [reflexivity|].
  split; [intros x ->; reflexivity|]. intros ->. split; [exact HVA|].
  apply covers_T. intros k Hk. rewrite N3. apply Rabs_le_between. apply HVB. unfold nd_size in *. rewrite <- N1, <- N2. exact Hk.
Qed.

(** When no fields are stored the calls raise: plt_abs and plt_re ValueError, plt_diff
    TypeError; the nonlinear plots raise TypeError when only linear fields are stored.  Tiling
    zero times raises ValueError. *)
Theorem C87_unsolved : forall s outline vmin vmax t normalize, (0 < t)%nat ->
  (s_fields s (pol_comp (s_pol s)) = None -> forall nl,
     plt_abs nl outline vmin vmax t s = Raise ValueError /\ plt_re nl outline t s = Raise ValueError /\
     plt_diff outline vmax t normalize s = Raise TypeError) /\
  (s_fields s (pol_comp (s_pol s)) <> None -> s_fields_nl s (pol_comp (s_pol s)) = None ->
     plt_abs true outline vmin vmax t s = Raise TypeError /\ plt_re true outline t s = Raise TypeError /\
     plt_diff outline vmax t normalize s = Raise TypeError) /\
  (forall nl, plt_abs nl outline vmin vmax 0 s = Raise ValueError /\ plt_re nl outline 0 s = Raise ValueError /\
     plt_diff outline vmax 0 normalize s = Raise ValueError /\ plt_eps outline 0 s = Raise ValueError).
Proof.
  intros s outline vmin vmax t normalize Ht. destruct (tile_ok t (s_eps s) Ht) as [eps He].
  split; [|split].
  - intros H0 nl. unfold plt_abs, plt_re, plt_diff, s_field. rewrite He, H0. repeat split.
  - intros H0 H1. unfold plt_abs, plt_re, plt_diff, s_field. rewrite He, H1.
    destruct (s_fields s (pol_comp (s_pol s))); [|contradiction]. repeat split.
  - intro nl. unfold plt_abs, plt_re, plt_diff, plt_eps. cbn. destruct (s_fields _ _); repeat split.
Qed.

(** every reachable simulation with a non-empty grid qualifies *)
Theorem C87_reachable_shaped : forall e s, reachable e s -> (0 < s_Nx s)%nat -> (0 < s_Ny s)%nat -> shaped s.
Proof. intros e s H HX HY. apply reachable_consistent in H as (H1 & H2 & _). repeat split; auto. Qed.

(** the plots of a solved simulation with a source at one pixel *)
Definition ex_point : nd C := mkNd 3 2 (fun k => if Nat.eqb k 2 then RtoC 1 else RtoC 0).
Example C87_met : exists s F G, reachable ex_env s /\ shaped s /\ s_pol s = PolEz /\
  s_fields s Ez = Some F /\ s_fields_nl s Ez = Some G /\
  exists i j, (i < s_Nx s)%nat /\ (j < s_Ny s)%nat /\ fld s F i j <> RtoC 0.
Proof.
  assert (HS := ex_s_eq "Ez"%string ltac:(auto)). destruct (ex_fields "Ez"%string) as (E1 & E2 & E3 & E4); [auto|].
  assert (EP: s_pol (ex_s "Ez"%string) = PolEz) by (apply Simulation_fields in HS; apply HS; reflexivity).
  set (s0 := upd_src ex_point (ex_s "Ez"%string)).
  assert (HM0: nd_size (s_src s0) = s_M s0) by (change (s_M s0) with (s_M (ex_s "Ez"%string)); rewrite E4; reflexivity).
  destruct (born_solve_runs ex_env None (1 / 10 ^ 10)%R 3 false s0) as (s1 & F & conv & HB & HP); [exact HM0|lia|].
  set (s2 := upd_fields_nl (store3 (s_pol s1) (s_fields_nl s1) F) s1).
  destruct HP as (P1 & P2 & P3 & P4 & P5 & P6 & P7 & P8 & P9 & P10 & P11 & P12 & P13 & P14 & P15 & P16 & P17).
  assert (EM: s_M s2 = 6%nat) by (unfold s_M, s2; cbn; rewrite P6, P7; exact E4).
  assert (HM2: nd_size (s_src s2) = s_M s2) by (rewrite EM; cbn; rewrite P8; reflexivity).
  destruct (solve_fields_lin ex_env false s2 HM2) as (X & HX & HL). cbv zeta in HL.
  set (D := derived_fields s2 (s_epsC s2) false X) in HL.
  set (s := run_ops ex_env [SetSrc ex_point; SolveNl false None "born"%string (1 / 10 ^ 10)%R 3; Solve false false] (ex_s "Ez"%string)).
  assert (Es: s = upd_fields (store3 (s_pol s2) (s_fields s2) (fst D, snd D, X)) s2).
  { unfold s. cbn [run_ops fold_left run_op]. fold s0.
    unfold solve_fields_nl, run_solver_nl. cbn [String.eqb Ascii.eqb Bool.eqb]. rewrite HB. cbn [fst]. fold s2. rewrite HL. reflexivity. }
  assert (EP2: s_pol s2 = PolEz) by (cbn; rewrite P4; exact EP).
  assert (HR: reachable ex_env s).
  { exists ex_omega, ex_eps, 1%R, (Some [0;0]%Z), "Ez"%string, 1%R, (ex_s "Ez"%string). eexists. split; [lra|]. split; [cbn; lia|]. split; [cbn; lia|]. split; [exact HS|reflexivity]. }
  assert (ENx: s_Nx s = 3%nat) by (rewrite Es; cbn; rewrite P6; exact E1).
  assert (ENy: s_Ny s = 2%nat) by (rewrite Es; cbn; rewrite P7; exact E2).
  exists s, X, (snd F). split; [exact HR|]. split; [apply (C87_reachable_shaped ex_env); [exact HR|lia..]|].
  split; [rewrite Es; exact EP2|]. split. { rewrite Es. cbn [upd_fields s_fields]. rewrite EP2. reflexivity. }
  split. { rewrite Es. cbn [upd_fields s_fields_nl s2 upd_fields_nl]. rewrite (EP2 : s_pol s1 = PolEz). destruct F as [[a b] c]. reflexivity. }
  assert (HSol: solves 6 (s_A (ex_s "Ez"%string)) X (rhs s2)).
  { assert (HN := ex_nonsingular). rewrite E4 in HN. rewrite EM in HX. change (s_A s2) with (s_A s1) in HX. rewrite P12 in HX.
    eapply solver_direct_correct; [apply ex_env_exact|exact HN|exact HX]. }
  assert (HNZ: exists k, (k < 6)%nat /\ X k <> RtoC 0).
  { destruct (all_zero 6 X) eqn:Z.
    - exfalso. assert (Z0 := proj1 (all_zero_spec 6 X) Z). specialize (HSol 2%nat ltac:(lia)).
      rewrite csum_0 in HSol by (intros c Hc; rewrite (Z0 c Hc); ring).
      unfold rhs in HSol. cbn [s2 upd_fields_nl s_src s_omega] in HSol. rewrite P8, P2 in HSol. cbn [s0 upd_src s_src ex_point nd_buf Nat.eqb s_omega] in HSol.
      destruct (Simulation_fields _ _ _ _ _ _ _ HS) as (Q1 & _). rewrite Q1 in HSol. apply (f_equal Im) in HSol. autorewrite with reim in HSol. cbn in HSol.
      assert (P := ex_omega_pos). lra.
    - apply Classical_Prop.NNPP. intro HC. assert (Z1: all_zero 6 X = true); [|congruence].
      apply all_zero_spec. intros k Hk. apply Classical_Prop.NNPP. intro. apply HC. eauto. }
  destruct HNZ as (k & Hk & Hne). exists (k / 2)%nat, (k mod 2)%nat. rewrite ENx, ENy.
  split; [apply Nat.div_lt_upper_bound; lia|]. split; [apply Nat.mod_upper_bound; lia|].
  unfold fld, pix. rewrite ENy. replace (k / 2 * 2 + k mod 2)%nat with k by (rewrite (Nat.div_mod k 2) at 1; lia). exact Hne.
Qed.


(* ------------------------------------------------------------------ *)
(** * C88: animations *)

(** the real field at time t, in units of the period, of a phasor z *)
Definition at_time (z : C) (t : R) : R := (Re z * cos (2 * PI * t) - Im z * sin (2 * PI * t))%R.

(** plt_base_ani(field, Nframes=N), N >= 2: frame i shows the field at time i/(N-1) *)
Theorem C88_frames : forall (F : nd C) (N i : nat), (2 <= N)%nat ->
  exists a, ani_frame F N i = Ok a /\
    shows a (nd_nx F) (nd_ny F) 1 (fun x y => at_time (nd_at F x y) (INR i / INR (N - 1))).
Proof.
  intros F N i HN. unfold ani_frame. destruct (Nat.eqb_spec N 1) as [E|_]; [lia|]. cbv zeta. eexists. split; [reflexivity|].
  split; [reflexivity|]. split; [cbn; lia|]. intros x y q Hx Hy Hq. replace q with O by lia. rewrite nd_map_at, nd_T_at by exact Hx.
  cbn [Nat.mul Nat.add]. unfold at_time. rewrite minus_INR by lia. cbn [INR].
  replace (2 * PI * (INR i / (INR N - 1)))%R with (2 * PI * INR i / (INR N - 1))%R by (unfold Rdiv; ring).
  destruct (nd_at F x y) as [u v]. reflexivity.
Qed.
(** the first and the last frame are the real part of the field: the loop closes *)
Theorem C88_loop_closes : forall (F : nd C) (N i : nat), (2 <= N)%nat -> i = O \/ i = (N - 1)%nat ->
  exists a, ani_frame F N i = Ok a /\ shows a (nd_nx F) (nd_ny F) 1 (fun x y => Re (nd_at F x y)).
Proof.
  intros F N i HN Hi. destruct (C88_frames F N i HN) as (a & Ha & S1 & S2 & S3). exists a. split; [exact Ha|]. split; [exact S1|]. split; [exact S2|].
  intros x y q Hx Hy Hq. rewrite (S3 x y q Hx Hy Hq). unfold at_time.
  assert (HP: (0 < INR (N - 1))%R) by (apply lt_0_INR; lia).
  destruct Hi as [-> | ->].
  - replace (2 * PI * (INR 0 / INR (N - 1)))%R with 0%R by (cbn [INR]; field; lra). rewrite cos_0, sin_0. ring.
  - replace (2 * PI * (INR (N - 1) / INR (N - 1)))%R with (2 * PI)%R by (field; lra). rewrite cos_2PI, sin_2PI. ring.
Qed.
(** the colour scale of the animation is the largest modulus, and every frame stays on it *)
Theorem C88_scale : forall F : nd C, (0 < nd_nx F)%nat -> (0 < nd_ny F)%nat ->
  exists v, ani_limit F = Ok v /\ attained (fun x y => Cmod (nd_at F x y)) (nd_nx F) (nd_ny F) v /\
    forall N i a, ani_frame F N i = Ok a -> covers a (- v) v.
Proof.
  intros F HX HY. destruct (nd_max_spec (nd_map Cmod (nd_T F))) as (v & Hv & HB & k & Hk & Ek); [unfold nd_size; cbn; nia|].
  unfold nd_size in Hk. cbn [nd_map nd_T nd_nx nd_ny] in Hk.
  exists v. split; [exact Hv|]. split.
  - exists (k mod nd_nx F)%nat, (k / nd_nx F)%nat. split; [apply Nat.mod_upper_bound; lia|]. split; [apply Nat.div_lt_upper_bound; nia|].
    rewrite <- Ek. reflexivity.
  - intros N i a Ha r c Hr Hc. unfold ani_frame in Ha. destruct (Nat.eqb N 1); [discriminate|]. cbv zeta in Ha. injection Ha as <-.
    cbn [nd_map nd_T nd_nx nd_ny] in Hr, Hc. rewrite nd_map_at. set (t := (2 * PI * INR i / (INR N - 1))%R).
    destruct (at_buf (nd_map Cmod (nd_T F)) r c Hr Hc) as (q & Hq & Eq). specialize (HB q Hq). rewrite <- Eq, nd_map_at in HB.
    set (z := nd_at (nd_T F) r c) in *.
    assert (HM: (Cmod (z * (cos t, sin t))%C <= v)%R).
    { rewrite Cmod_mult. replace (Cmod (cos t, sin t)) with 1%R; [lra|]. unfold Cmod. cbn [fst snd].
      replace (cos t ^ 2 + sin t ^ 2)%R with (Rsqr (sin t) + Rsqr (cos t))%R by (unfold Rsqr; ring). rewrite sin2_cos2, sqrt_1. reflexivity. }
    assert (HR := Cmod_Re_le (z * (cos t, sin t))%C). apply Rabs_le_between. eapply Rle_trans; [exact HR|exact HM].
Qed.
(** frames are equally spaced in time: each is obtained from the previous two by the recurrence
    of a harmonic oscillation *)
Theorem C88_harmonic : forall (F : nd C) (N i : nat) a b c, (2 <= N)%nat ->
  ani_frame F N i = Ok a -> ani_frame F N (S i) = Ok b -> ani_frame F N (S (S i)) = Ok c ->
  forall x y, (x < nd_nx F)%nat -> (y < nd_ny F)%nat ->
  (nd_at c y x + nd_at a y x = 2 * cos (2 * PI / INR (N - 1)) * nd_at b y x)%R.
Proof.
  intros F N i a b c HN Ha Hb Hc x y Hx Hy.
  destruct (C88_frames F N i HN) as (a' & Ha' & _ & _ & Sa). destruct (C88_frames F N (S i) HN) as (b' & Hb' & _ & _ & Sb).
  destruct (C88_frames F N (S (S i)) HN) as (c' & Hc' & _ & _ & Sc).
  rewrite Ha in Ha'. injection Ha' as <-. rewrite Hb in Hb'. injection Hb' as <-. rewrite Hc in Hc'. injection Hc' as <-.
  specialize (Sa x y O Hx Hy ltac:(lia)). specialize (Sb x y O Hx Hy ltac:(lia)). specialize (Sc x y O Hx Hy ltac:(lia)).
  cbn [Nat.mul Nat.add] in Sa, Sb, Sc. rewrite Sa, Sb, Sc. unfold at_time. rewrite !S_INR.
  assert (HP: (0 < INR (N - 1))%R) by (apply lt_0_INR; lia).
  set (d := (2 * PI / INR (N - 1))%R). set (m := (2 * PI * ((INR i + 1) / INR (N - 1)))%R).
  replace (2 * PI * (INR i / INR (N - 1)))%R with (m - d)%R by (unfold m, d; field; lra).
  replace (2 * PI * ((INR i + 1 + 1) / INR (N - 1)))%R with (m + d)%R by (unfold m, d; field; lra).
  rewrite cos_plus, cos_minus, sin_plus, sin_minus. ring.
Qed.
(** With one frame every frame raises. *)
Theorem C88_one_frame : forall (F : nd C) i, ani_frame F 1 i = Raise ZeroDivisionError.
Proof. reflexivity. Qed.
(** The property a user expects also includes square pixels: the rectangle the frames are
    drawn in should be as wide as the picture has columns and as high as it has rows.  The
    code transposes the first image twice, and this holds for square domains only. *)
Definition C88_square_pixels (F : nd C) : Prop := ani_box F = (nd_nx F, nd_ny F).
Theorem C88_square_pixels_iff : forall F, C88_square_pixels F <-> nd_nx F = nd_ny F.
Proof.
  intro F. unfold C88_square_pixels, ani_box. cbn. split; [intro H; injection H; auto|]. intros ->. reflexivity.
Qed.
(** What it is instead: the two sides exchanged. *)
Theorem C88_stretched_frames : forall F, ani_box F = (nd_ny F, nd_nx F).
Proof. reflexivity. Qed.
Theorem C88_square_pixels_refuted : ~ forall F, C88_square_pixels F.
Proof. intro H. specialize (H (mkNd 3 2 (fun _ => RtoC 0))). apply C88_square_pixels_iff in H. discriminate. Qed.
Example C88_met : exists F a b, (2 <= 5)%nat /\ ani_frame F 5 0 = Ok a /\ ani_frame F 5 1 = Ok b /\ ani_limit F = Ok 5%R /\
  nd_at a 0 1 = 3%R /\ nd_at b 0 1 = (-4)%R.
Proof.
  set (F := mkNd 2 1 (fun k => if Nat.eqb k 1 then (3, 4)%R else RtoC 0)).
  destruct (C88_frames F 5 0 ltac:(lia)) as (a & Ha & _ & _ & Sa). destruct (C88_frames F 5 1 ltac:(lia)) as (b & Hb & _ & _ & Sb).
  exists F, a, b. split; [lia|]. split; [exact Ha|]. split; [exact Hb|].
  specialize (Sa 1%nat O O ltac:(cbn; lia) ltac:(cbn; lia) ltac:(lia)). specialize (Sb 1%nat O O ltac:(cbn; lia) ltac:(cbn; lia) ltac:(lia)).
  change (nd_at F 1 0) with (3, 4)%R in Sa, Sb. cbn [Nat.mul Nat.add] in Sa, Sb. unfold at_time in Sa, Sb.
  replace (2 * PI * (INR 0 / INR (5 - 1)))%R with 0%R in Sa by (cbn; field). replace (2 * PI * (INR 1 / INR (5 - 1)))%R with (PI / 2)%R in Sb by (cbn; field).
  rewrite cos_0, sin_0 in Sa. rewrite cos_PI2, sin_PI2 in Sb. cbn [Re Im fst snd] in Sa, Sb.
  assert (C5: Cmod (3, 4)%R = 5%R). { unfold Cmod. cbn [fst snd]. replace (3 ^ 2 + 4 ^ 2)%R with (5 ^ 2)%R by ring. apply sqrt_pow2. lra. }
  split.
  - destruct (C88_scale F) as (v & Hv & (x & y & Hx & Hy & E) & HC); [cbn; lia..|]. rewrite Hv. f_equal.
    cbn [F nd_nx nd_ny] in Hx, Hy. assert (y = O) by lia. subst y. destruct x as [|[|x]]; [|rewrite <- E; exact C5|lia].
    change (Cmod (RtoC 0) = v) in E. rewrite Cmod_0 in E. subst v. assert (HC0 := HC 5%nat O a Ha O 1%nat).
    assert (HD: nd_nx a = 1%nat /\ nd_ny a = 2%nat) by (unfold ani_frame in Ha; cbn in Ha; injection Ha as <-; split; reflexivity).
    specialize (HC0 ltac:(lia) ltac:(lia)). rewrite Sa in HC0. lra.
  - rewrite Sa, Sb. split; ring.
Qed.

(* ------------------------------------------------------------------ *)
(** * C89: the plot of the objectives *)

(** The same simulation with its source scaled to peak amplitude 1 *)
Definition unit_source (s : sim) : nd C := nd_map (fun z => (RtoC (/ amplitude s) * z)%C) (s_src s).
(** an objective function that is homogeneous of degree d in fields with n pixels (it does not
    see anything but the pixels): d = 1 for a modulus, d = 2 for an intensity or power *)
Definition degree (n d : nat) (J : pyfun) : Prop :=
  forall (c : R) (Fs Gs : list vec), (0 < c)%R -> List.length Gs = List.length Fs ->
  (forall i k, (k < n)%nat -> List.nth i Gs vzero k = (RtoC c * List.nth i Fs vzero k)%C) ->
  pf_val J Gs = (c ^ d * pf_val J Fs)%R.
(** objective J of linear Ez, Hx, Hy fields in Ez polarization, Maxwell's equations regular *)
Definition lin_case (J : pyfun) (args : list obj_arg) (o : opt) (s : sim) : Prop :=
  o_objective o = set_J J args /\ List.Forall lin_Ez_arg args /\ List.length args = pf_arity J /\
  s_pol s = PolEz /\ nonsingular (s_M s) (s_A s).

Lemma fresh_lin e o s J args v : lin_case J args o s -> fresh_J e o s = Ok v ->
  nd_size (s_src s) = s_M s.
Proof.
  intros _ H. unfold fresh_J, objective_value in H. destruct (solve_fields e false false s) as [s1 [F|x]] eqn:E; [|discriminate].
  apply solve_fields_lin_state in E as [_ [(E & _)|(E & _)]]; [discriminate|exact E].
Qed.
Lemma fresh_value e o s J args : lin_case J args o s -> nd_size (s_src s) = s_M s ->
  fresh_J e o s = Ok (pf_val J (List.map (fun a => field_map s (oa_comp a) (lin_solution e s)) args)).
Proof.
  intros (H1 & H2 & H3 & H4 & _) HS.
  assert (HJ := compute_J_lin e (upd_current false o) s J args eq_refl H1 H4 HS H2 H3).
  apply compute_J_fresh' in HJ; [exact HJ|reflexivity].
Qed.
Lemma lin_solution_ok e s : solver_exact e -> nonsingular (s_M s) (s_A s) -> solves (s_M s) (s_A s) (lin_solution e s) (rhs s).
Proof.
  intros He HN. unfold lin_solution. destruct (solver_direct_default_ok e (s_M s) (s_A s) (rhs s)) as [X HX]. rewrite HX. eapply solver_direct_correct; eassumption.
Qed.
(** scaling the source scales the linear fields *)
Lemma lin_solution_scale e s src c : solver_exact e -> nonsingular (s_M s) (s_A s) ->
  (forall k, (k < s_M s)%nat -> nd_buf src k = (c * nd_buf (s_src s) k)%C) ->
  veq (s_M s) (lin_solution e (upd_src src s)) (vscal c (lin_solution e s)).
Proof.
  intros He HN Hs. apply (solves_unique (s_M s) (s_A s) _ _ (rhs (upd_src src s)) HN).
  - apply (lin_solution_ok e (upd_src src s) He HN).
  - intros r Hr. assert (HX := lin_solution_ok e s He HN r Hr).
    change (csum (s_M s) _) with (mv (s_M s) (s_A s) (vscal c (lin_solution e s)) r).
    change (csum (s_M s) _) with (mv (s_M s) (s_A s) (lin_solution e s) r) in HX. rewrite mv_vscal, HX. unfold rhs. cbn [upd_src s_src s_omega]. rewrite (Hs r Hr). ring.
Qed.
Lemma field_map_scale s src c X Y q : veq (s_M s) Y (vscal c X) -> veq (s_M s) (field_map (upd_src src s) q Y) (vscal c (field_map s q X)).
Proof.
  intros H k Hk.
  assert (HD := derived_linear s (s_epsC s) false X vzero Y c (RtoC 0)). cbv zeta in HD.
  assert (HZ: forall k, (k < s_M s)%nat -> Y k = (c * X k + RtoC 0 * vzero k)%C) by (intros j Hj; rewrite (H j Hj); unfold vscal, vzero; ring).
  specialize (HD HZ k). unfold field_map. destruct q; try (apply (H k Hk)); unfold vscal.
  - etransitivity; [apply (proj1 HD)|]. ring.
  - etransitivity; [apply (proj2 HD)|]. ring.
Qed.

(** With a source of peak amplitude 1 the objective is the original one divided by the d-th
    power of the peak amplitude. *)
Theorem C89_unit_amplitude : forall e o s J args d v, lin_case J args o s -> solver_exact e -> degree (s_M s) d J ->
  (0 < amplitude s)%R -> fresh_J e o s = Ok v ->
  amplitude (upd_src (unit_source s) s) = 1%R /\
  fresh_J e o (upd_src (unit_source s) s) = Ok (v / amplitude s ^ d)%R.
Proof.
  intros e o s J args d v HL He HD Ha Hv. assert (HS := fresh_lin _ _ _ _ _ _ HL Hv).
  assert (Hi: (0 < / amplitude s)%R) by (apply Rinv_0_lt_compat, Ha).
  rewrite (fresh_value e o s J args HL HS) in Hv. injection Hv as Hv. split.
  - assert (Hn: (0 < nd_size (s_src s))%nat).
    { unfold amplitude in Ha. destruct (nd_size (s_src s)); [cbn in Ha; lra|lia]. }
    unfold amplitude at 1. cbn [upd_src s_src]. change (nd_size (unit_source s)) with (nd_size (s_src s)).
    destruct (rmax_spec (nd_size (s_src s)) (fun k => Cmod (nd_buf (unit_source s) k)) Hn) as [(i & Hi' & Ei) HB].
    destruct (rmax_spec (nd_size (s_src s)) (fun k => Cmod (nd_buf (s_src s) k)) Hn) as [(j & Hj & Ej) HC]. fold (amplitude s) in Ej, HC.
    assert (HU: forall k, Cmod (nd_buf (unit_source s) k) = (/ amplitude s * Cmod (nd_buf (s_src s) k))%R).
    { intro k. cbn [unit_source nd_map nd_buf]. rewrite Cmod_mult, Cmod_R, Rabs_pos_eq by lra. reflexivity. }
    apply Rle_antisym.
    + rewrite Ei, HU. apply Rmult_le_reg_l with (amplitude s); [exact Ha|]. rewrite <- Rmult_assoc, Rinv_r, Rmult_1_l, Rmult_1_r by lra. apply (HC i Hi').
    + specialize (HB j Hj). cbv beta in HB. rewrite HU, <- Ej, Rinv_l in HB by lra. exact HB.
  - assert (HL2: lin_case J args o (upd_src (unit_source s) s)) by exact HL.
    rewrite (fresh_value e o (upd_src (unit_source s) s) J args HL2 HS). f_equal. rewrite <- Hv.
    destruct HL as (_ & _ & _ & _ & HN).
    rewrite (HD (/ amplitude s)%R (List.map (fun a => field_map s (oa_comp a) (lin_solution e s)) args)); [|exact Hi|rewrite !map_length; reflexivity|].
    + rewrite pow_inv. unfold Rdiv. ring.
    + intros i k Hk. destruct (le_lt_dec (List.length args) i) as [Hi'|Hi'].
      { rewrite !nth_overflow by (rewrite map_length; exact Hi'). unfold vzero. ring. }
      rewrite (nth_indep _ vzero (field_map (upd_src (unit_source s) s) (oa_comp Ez_lin) (lin_solution e (upd_src (unit_source s) s)))) by (rewrite map_length; exact Hi').
      rewrite (nth_indep (List.map (fun a => field_map s (oa_comp a) (lin_solution e s)) args) vzero (field_map s (oa_comp Ez_lin) (lin_solution e s))) by (rewrite map_length; exact Hi').
      rewrite (map_nth (fun a => field_map (upd_src (unit_source s) s) (oa_comp a) _)), (map_nth (fun a => field_map s (oa_comp a) _)).
      apply (field_map_scale s (unit_source s) (RtoC (/ amplitude s))); [|exact Hk].
      apply lin_solution_scale; [exact He|exact HN|]. intros; reflexivity.
Qed.

(** What plt_objs(norm, ax) draws, for every history of runs of an optimization: one point for
    every recorded objective, numbered from 1; without normalization its height is the
    objective; with norm='field' (objectives of degree 1) or norm='power' (degree 2) it is
    the value of the objective for the design of that iteration and a source of peak amplitude 1. *)
Definition norm_degree (norm : norm_by) : nat := match norm with NoNorm => 0 | ByField => 1 | ByPower => 2 end.
Lemma nth_combine {T U} (l : list T) (m : list U) k p : nth_error (List.combine l m) k = Some p ->
  nth_error l k = Some (fst p) /\ nth_error m k = Some (snd p).
Proof.
  revert m k. induction l as [|a l IH]; intros m k H; [destruct k; discriminate|]. destruct m as [|b m]; [destruct k; discriminate|].
  destruct k; cbn in *; [injection H as <-; split; reflexivity|apply IH, H].
Qed.
Lemma seq_nth_error n b k x : nth_error (List.seq b n) k = Some x -> x = (b + k)%nat.
Proof.
  revert b k. induction n as [|n IH]; intros b k H; [destruct k; discriminate|]. destruct k; cbn in H; [injection H as <-; lia|].
  apply IH in H. lia.
Qed.
Lemma scaled_length norm o : List.length (o_objs o) = List.length (o_src_amps o) -> List.length (obj_scaled norm o) = List.length (o_objs o).
Proof. intro H. destruct norm; cbn [obj_scaled]; rewrite map_length, ?combine_length; lia. Qed.
Theorem C89_points : forall e rs o norm, history e rs o ->
  exists l, plt_objs norm true o = Ok l /\ List.length l = List.length (o_objs o) /\
    forall k n q, nth_error l k = Some (n, q) -> n = S k /\
      exists v o1 s1 si, nth_error (o_objs o) k = Some v /\
        In (o1, s1) rs /\ variant o1 s1 si /\ fresh_J e o1 si = Ok v /\
        match norm with
        | NoNorm => q = Some v
        | _ => (amplitude si = 0%R -> q = None) /\
               (forall J args, lin_case J args o1 si -> solver_exact e -> degree (s_M si) (norm_degree norm) J -> (0 < amplitude si)%R ->
                exists w, q = Some w /\ amplitude (upd_src (unit_source si) si) = 1%R /\
                          fresh_J e o1 (upd_src (unit_source si) si) = Ok w)
        end.
Proof.
  intros e rs o norm HH. destruct (C45_objectives_and_amplitudes_aligned e rs o HH) as [HL HA].
  unfold plt_objs. rewrite (scaled_length norm o HL), Nat.eqb_refl. eexists. split; [reflexivity|].
  split. { rewrite combine_length, seq_length, (scaled_length norm o HL). lia. }
  intros k n q Hk. apply nth_combine in Hk as [H1 H2]. cbn [fst snd] in H1, H2. apply seq_nth_error in H1. split; [lia|].
  assert (HV: exists v a, nth_error (o_objs o) k = Some v /\ nth_error (o_src_amps o) k = Some a /\
    q = match norm with NoNorm => Some v | ByField => quotient v a | ByPower => quotient v (a ^ 2)%R end).
  { assert (Hk: (k < List.length (o_objs o))%nat) by (rewrite <- (scaled_length norm o HL); apply nth_error_Some; congruence).
    destruct (nth_error (o_objs o) k) as [v|] eqn:Ev; [|apply nth_error_None in Ev; lia].
    destruct (nth_error (o_src_amps o) k) as [a|] eqn:Ea; [|apply nth_error_None in Ea; lia].
    exists v, a. split; [reflexivity|]. split; [reflexivity|]. destruct norm; cbn [obj_scaled] in H2.
    - rewrite (map_nth_error Some k _ Ev) in H2. congruence.
    - rewrite nth_error_map in H2. destruct (nth_error (List.combine _ _) k) as [p|] eqn:Ep; [|discriminate]. apply nth_combine in Ep as [P1 P2]. cbn [option_map] in H2. congruence.
    - rewrite nth_error_map in H2. destruct (nth_error (List.combine _ _) k) as [p|] eqn:Ep; [|discriminate]. apply nth_combine in Ep as [P1 P2]. cbn [option_map] in H2. congruence. }
  destruct HV as (v & a & Hv & Ha & Hq). destruct (HA k v a Hv Ha) as (o1 & s1 & si & I1 & I2 & I3 & I4).
  exists v, o1, s1, si. split; [exact Hv|]. split; [exact I1|]. split; [exact I2|]. split; [exact I4|].
  destruct norm; [exact Hq| |]; subst a; rewrite Hq; unfold quotient.
  - split. { intros ->. destruct (Req_EM_T 0 0); [reflexivity|lra]. }
    intros J args HC He HD Hp. destruct (C89_unit_amplitude e o1 si J args 1 v HC He HD Hp I4) as [K1 K2].
    destruct (Req_EM_T (amplitude si) 0); [lra|]. eexists. split; [reflexivity|]. split; [exact K1|]. rewrite K2. f_equal. f_equal. ring.
  - split. { intros ->. destruct (Req_EM_T (0 ^ 2) 0); [reflexivity|lra]. }
    intros J args HC He HD Hp. destruct (C89_unit_amplitude e o1 si J args 2 v HC He HD Hp I4) as [K1 K2].
    destruct (Req_EM_T (amplitude si ^ 2) 0) as [E|_]; [nra|]. eexists. split; [reflexivity|]. split; [exact K1|exact K2].
Qed.
(** Without axes, the default, the call raises for every optimization. *)
Theorem C89_without_axes_raises : forall norm o, plt_objs norm false o = Raise AttributeError.
Proof. reflexivity. Qed.
(** For objectives of another degree the normalized plot is not the value at unit amplitude:
    e.g. norm='field' of an intensity still depends on the strength of the source. *)
Theorem C89_wrong_degree : forall e o s J args v, lin_case J args o s -> solver_exact e -> degree (s_M s) 2 J ->
  (0 < amplitude s)%R -> fresh_J e o s = Ok v -> v <> 0%R ->
  exists w, fresh_J e o (upd_src (unit_source s) s) = Ok w /\ (quotient v (amplitude s) = Some w <-> amplitude s = 1%R).
Proof.
  intros e o s J args v HC He HD Ha Hv Hne. destruct (C89_unit_amplitude e o s J args 2 v HC He HD Ha Hv) as [_ HW]. eexists. split; [exact HW|].
  unfold quotient. destruct (Req_EM_T (amplitude s) 0); [lra|]. split.
  - intro E. injection E as E. assert (E2: (v * amplitude s = v)%R).
    { replace (v * amplitude s)%R with (v / amplitude s * amplitude s ^ 2)%R by (field; lra). rewrite E. field. lra. }
    apply Rmult_eq_reg_l with v; [lra|exact Hne].
  - intros ->. f_equal. field.
Qed.

Lemma intensity_degree n a : degree n 2 (intensity n a).
Proof.
  intros c Fs Gs Hc HL H. cbn [intensity pf_val]. rewrite HL, <- rsum_scal. apply rsum_ext. intros i Hi. rewrite <- rsum_scal. apply rsum_ext. intros k Hk.
  rewrite (H i k Hk). destruct (List.nth i Fs vzero k) as [u w]. unfold Cnorm2. cbn. ring.
Qed.
Lemma tanh5 : (4 / 5 < tanh 5)%R.
Proof.
  assert (H := exp_ineq1 10 ltac:(lra)). unfold tanh, sinh, cosh.
  assert (P: (exp 5 * exp (-5) = 1)%R) by (rewrite <- exp_plus; replace (5 + -5)%R with 0%R by ring; apply exp_0).
  assert (Q: (exp 5 * exp 5 = exp 10)%R) by (rewrite <- exp_plus; f_equal; ring).
  assert (A := exp_pos 5). assert (B := exp_pos (-5)).
  replace ((exp 5 - exp (- (5))) / 2 / ((exp 5 + exp (- (5))) / 2))%R with ((exp 5 - exp (-5)) / (exp 5 + exp (-5)))%R by (replace (- (5))%R with (-5)%R by ring; field; lra).
  apply Rmult_lt_reg_r with (exp 5 + exp (-5))%R; [lra|]. replace ((exp 5 - exp (-5)) / (exp 5 + exp (-5)) * (exp 5 + exp (-5)))%R with (exp 5 - exp (-5))%R by (field; lra).
  assert (9 * exp (-5) < exp 5)%R; [|lra]. apply Rmult_lt_reg_l with (exp 5); [exact A|]. nra.
Qed.
Lemma tanh_gt x : (-1 < tanh x)%R.
Proof.
  rewrite tanh_exp. assert (P := exp_pos (2 * x)). assert (H: (/ (exp (2 * x) + 1) < 1)%R); [|unfold Rdiv; lra].
  rewrite <- Rinv_1. apply Rinv_lt_contravar; lra.
Qed.

(** a run of n steps of an intensity: every point of plt_objs(norm='power') is the intensity for
    a source of amplitude 1 *)
Example C89_met : exists s0 o, fam_sim "Ez" 5 4 1 1 (fun _ => 1%R) = Ok s0 /\
  (0 < amplitude (ex_run_sim o s0))%R /\ degree 20 2 (intensity 20 1) /\
  (forall si, variant o (ex_run_sim o s0) si -> s_M si = 20%nat /\ lin_case (intensity 20 1) [Ez_lin] o si) /\
  forall n step b1 b2, exists o1 s1, run ex_env MGD n step b1 b2 (o, ex_run_sim o s0) = ((o1, s1), Ok tt) /\
    history ex_env [(o, ex_run_sim o s0)] o1.
Proof.
  destruct run_example as (s0 & ob & o & H0 & HO & HOpt & HR & HV & HC & HM & HN). exists s0, o. split; [exact H0|].
  split.
  { unfold amplitude. destruct (rmax_spec (nd_size (s_src (ex_run_sim o s0))) (fun k => Cmod (nd_buf (s_src (ex_run_sim o s0)) k))) as [_ HB]; [cbn; lia|].
    specialize (HB 5%nat ltac:(cbn; lia)). change (nd_buf (s_src (ex_run_sim o s0)) 5) with (RtoC 1) in HB. rewrite Cmod_1 in HB. eapply Rlt_le_trans; [|exact HB]. lra. }
  split; [apply intensity_degree|]. split.
  - intros si [src HS]. destruct HR as (R1 & R2 & R3 & R4 & R5 & R6 & R7).
    assert (HX: s_M si = 20%nat /\ s_pol si = PolEz /\ nonsingular 20 (s_A si)).
    { destruct HS as [HS|[rho HS]].
      - destruct (same_rhs _ _ HS) as (_ & -> & _ & ->). destruct HS as (_ & _ & _ & _ & _ & _ & _ & _ & _ & _ & _ & -> & _).
        split; [exact HM|]. split; [exact R1|exact HN].
      - destruct (same_rhs _ _ HS) as (_ & -> & _ & ->). destruct HS as (_ & _ & _ & _ & _ & _ & _ & _ & _ & _ & _ & -> & _).
        destruct (fam_facts 5 4 1 1 (fun _ => 1%R) s0 o ex_src rho H0 ltac:(lia) ltac:(lia)) as (F1 & _ & _ & F4 & _ & _ & F7 & _).
        { unfold Optimization in HOpt. injection HOpt as <-. cbn [o_eps_m o_W o_eta o_beta]. intros k Hk. unfold rho2eps, rhob2eps, rhot2rhob.
          replace (10 * (1 / 2))%R with 5%R by field. replace (10 * (1 - 1 / 2))%R with 5%R by field.
          set (t := tanh (10 * _)). assert (T5 := tanh5). assert (T: (-1 < t)%R) by apply tanh_gt.
          assert (Q: (-1/8 < (tanh 5 + t) / (tanh 5 + tanh 5))%R); [|lra].
          apply Rmult_lt_reg_r with (tanh 5 + tanh 5)%R; [lra|]. replace ((tanh 5 + t) / (tanh 5 + tanh 5) * (tanh 5 + tanh 5))%R with (tanh 5 + t)%R by (field; lra). lra. }
        split; [exact F7|]. split; [exact F1|]. rewrite F7 in F4. exact F4. }
    destruct HX as (X1 & X2 & X3). split; [exact X1|]. rewrite <- X1 in X3. split; [exact R4|]. auto.
  - intros n step b1 b2. destruct (run_succeeds ex_env MGD n step b1 b2 _ _ _ _ (or_introl eq_refl) HR) as (o1 & s1 & E1 & _).
    exists o1, s1. split; [exact E1|]. assert (HH := hist_new ex_env _ _ _ _ _ _ _ _ _ _ _ HOpt).
    exact (hist_run ex_env _ _ _ _ _ _ _ _ _ _ _ HH eq_refl eq_refl E1).
Qed.
