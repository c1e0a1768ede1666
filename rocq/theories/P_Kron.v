(** C50: the Kronecker-product solver applies the Laplacian and its inverse. *)
From Coq Require Import Arith List Bool Lia ZArith Ring Ring_theory QArith Qcanon.
From Verif Require Import CBase Kron KronLem KronCode.
Import ListNotations.
Local Close Scope Qc_scope. Local Close Scope Q_scope.
Local Open Scope nat_scope.

Section Ring.
  Variables (K : Type) (zero one : K) (add mul sub : K -> K -> K) (opp : K -> K).
  Variable conj : K -> K.
  Variable Rth : ring_theory zero one add mul sub opp (@eq K).
  Add Ring Kring : Rth.

  (** ** Specification *)
  Fixpoint Sum (n : nat) (f : nat -> K) : K :=
    match n with 0 => zero | S m => add (Sum m f) (f m) end.
  Definition kron (i j : nat) : K := if i =? j then one else zero.
  (** column a of V (entry i) is an eigenvector of the n x n matrix L, the columns
      are orthonormal (w is v for real vectors, its conjugate for complex ones) *)
  Definition eigensystem (n : nat) (v w : nat -> nat -> K) (lam : nat -> K) (L : nat -> nat -> K) : Prop :=
    (forall i a, i < n -> a < n -> Sum n (fun j => mul (L i j) (v j a)) = mul (lam a) (v i a)) /\
    (forall a b, a < n -> b < n -> Sum n (fun i => mul (w i a) (v i b)) = kron a b) /\
    (forall i j, i < n -> j < n -> Sum n (fun a => mul (v i a) (w j a)) = kron i j).
  (** entry (i,a) of a matrix stored by columns *)
  Definition entry (V : buf K) (n i a : nat) : K := dat V (i + n * a).
  (** value at grid point (i,j,k), x fastest *)
  Definition at_grid (Nx Ny : nat) (f : nat -> K) (i j k : nat) : K := f (i + Nx * j + Nx * Ny * k).
  (** the three-dimensional operator Lx + Ly + Lz *)
  Definition Laplacian (Nx Ny Nz : nat) (Lx Ly Lz : nat -> nat -> K) (u : nat -> nat -> nat -> K) (i j k : nat) : K :=
    add (add (Sum Nx (fun a => mul (Lx i a) (u a j k))) (Sum Ny (fun b => mul (Ly j b) (u i b k))))
        (Sum Nz (fun c => mul (Lz k c) (u i j c))).
  Definition on_grid (Nx Ny Nz : nat) (i j k : nat) : Prop := i < Nx /\ j < Ny /\ k < Nz.
  Definition holds_mesh (Nx Ny Nz : nat) : Prop :=
    1 <= Nx /\ 1 <= Ny /\ 1 <= Nz /\ (Z.of_nat Nx * Z.of_nat Ny * Z.of_nat Nz <= 2147483647)%Z.

  Lemma Sum_sumn n f : Sum n f = sumn K zero add n f.
  Proof. induction n; cbn; congruence. Qed.
  Lemma at_grid_grid Nx Ny f i j k : at_grid Nx Ny f i j k = grid K Nx Ny f i j k.
  Proof. unfold at_grid, grid. f_equal. lia. Qed.
  Lemma kron_delta i j : kron i j = delta K zero one i j.
  Proof. reflexivity. Qed.

  (** spectral form of L *)
  Lemma spectral n v w lam L : eigensystem n v w lam L -> forall i j, i < n -> j < n ->
    sumn K zero add n (fun a => mul (mul (v i a) (lam a)) (w j a)) = L i j.
  Proof.
    intros [E [O C]] i j Hi Hj.
    rewrite (sum_ext _ _ _ n _ (fun a => sumn K zero add n (fun m => mul (L i m) (mul (v m a) (w j a))))).
    - rewrite (sum_swap _ _ _ _ _ _ _ Rth).
      rewrite (sum_ext _ _ _ n _ (fun m => mul (delta K zero one j m) (L i m))).
      + apply (sum_delta _ _ _ _ _ _ _ Rth). exact Hj.
      + intros m Hm. rewrite (sum_scale _ _ _ _ _ _ _ Rth). rewrite <- Sum_sumn, C by assumption.
        rewrite kron_delta. unfold delta. rewrite (Nat.eqb_sym m j). destruct (j =? m); ring.
    - intros a Ha.
      rewrite (sum_ext _ _ _ n _ (fun m => mul (mul (L i m) (v m a)) (w j a))) by (intros; ring).
      rewrite (sum_scale_r _ _ _ _ _ _ _ Rth). rewrite <- Sum_sumn, E by assumption. ring.
  Qed.

  Section Use.
    Variables Nx Ny Nz : nat.
    Variables (Lx Ly Lz : nat -> nat -> K) (lx ly lz : nat -> K).
    Variables (vx vy vz wx wy wz : nat -> nat -> K).
    Hypothesis Mesh : holds_mesh Nx Ny Nz.
    Hypothesis Ex : eigensystem Nx vx wx lx Lx.
    Hypothesis Ey : eigensystem Ny vy wy ly Ly.
    Hypothesis Ez : eigensystem Nz vz wz lz Lz.
    Let T2 := T' K zero add mul Nx Ny Nz vx vy vz wx wy wz.
    Lemma T2_comp d1 d2 v i j k : T2 d1 (T2 d2 v) i j k = T2 (fun a b c => mul (d1 a b c) (d2 a b c)) v i j k.
    Proof.
      apply (T'_comp K zero one add mul sub opp Rth); intros a b Ha Hb; rewrite <- Sum_sumn.
      - destruct Ex as [_ [O _]]. apply O; assumption.
      - destruct Ey as [_ [O _]]. apply O; assumption.
      - destruct Ez as [_ [O _]]. apply O; assumption.
    Qed.
    Lemma T2_one v i j k : on_grid Nx Ny Nz i j k -> T2 (fun _ _ _ => one) v i j k = v i j k.
    Proof.
      intros H. apply (T'_one K zero one add mul sub opp Rth); [| | |exact H]; intros a b Ha Hb; rewrite <- Sum_sumn.
      - destruct Ex as [_ [_ O]]. apply O; assumption.
      - destruct Ey as [_ [_ O]]. apply O; assumption.
      - destruct Ez as [_ [_ O]]. apply O; assumption.
    Qed.
    Lemma T2_lap v i j k : on_grid Nx Ny Nz i j k ->
      T2 (fun a b c => add (add (lx a) (ly b)) (lz c)) v i j k = Laplacian Nx Ny Nz Lx Ly Lz v i j k.
    Proof.
      intros H. unfold T2. rewrite (T'_lap K zero one add mul sub opp Rth) with (Lx := Lx) (Ly := Ly) (Lz := Lz).
      - unfold lap3, Laplacian. rewrite <- !Sum_sumn. reflexivity.
      - intros a b Ha Hb. rewrite <- Sum_sumn. destruct Ex as [_ [_ O]]. apply O; assumption.
      - intros a b Ha Hb. rewrite <- Sum_sumn. destruct Ey as [_ [_ O]]. apply O; assumption.
      - intros a b Ha Hb. rewrite <- Sum_sumn. destruct Ez as [_ [_ O]]. apply O; assumption.
      - apply spectral. exact Ex.
      - apply spectral. exact Ey.
      - apply spectral. exact Ez.
      - exact H.
    Qed.
    Lemma T2_ext d d' v v' i j k :
      (forall a b c, on_grid Nx Ny Nz a b c -> d a b c = d' a b c) -> (forall a b c, on_grid Nx Ny Nz a b c -> v a b c = v' a b c) ->
      T2 d v i j k = T2 d' v' i j k.
    Proof. apply (T'_ext K zero add mul). Qed.
  End Use.

  Section Claims.
    Variables Nx Ny Nz : nat.
    Variables (Lx Ly Lz : nat -> nat -> K) (lx ly lz : nat -> K).
    (** 1/x and the test fabs(x) > 1e-8 *)
    Variables (inv : K -> K) (big : K -> bool).
    Hypothesis inv_r : forall x, big x = true -> mul x (inv x) = one.
    Hypothesis Mesh : holds_mesh Nx Ny Nz.
    Variables (Vx Vy Vz : buf K).
    Hypothesis (Cx : Nx * Nx <= cap Vx) (Cy : Ny * Ny <= cap Vy) (Cz : Nz * Nz <= cap Vz).
    Definition nd := Nx * Ny * Nz.
    Definition eigs (l0 : nat -> K) : nat -> K := eigval_Lap_3D K add Nx Ny Nz lx ly lz l0.
    Notation grd := (at_grid Nx Ny).
    Notation Lap := (Laplacian Nx Ny Nz Lx Ly Lz).

    (** what applying the solver to [u] with diagonal [d] yields *)
    Definition applies (run : buf K -> buf K -> buf K -> (nat -> K) -> (nat -> K) -> outcome (buf K)) : Prop :=
      forall l0, 
      (* with the eigenvalues: the Laplacian *)
      (forall vec diag out j1 j2, nd <= cap vec -> nd <= cap diag -> nd <= cap out ->
         (forall i j k, on_grid Nx Ny Nz i j k -> grd (dat diag) i j k = grd (eigs l0) i j k) ->
         exists r, run vec diag out j1 j2 = Ok r /\
           forall i j k, on_grid Nx Ny Nz i j k -> grd (dat r) i j k = Lap (grd (dat vec)) i j k) /\
      (forall vec diag out j1 j2, nd <= cap vec -> nd <= cap diag -> nd <= cap out ->
         (forall i j k, on_grid Nx Ny Nz i j k -> grd (dat diag) i j k = grd (inv_eig K zero big inv (eigs l0)) i j k) ->
         exists r, run vec diag out j1 j2 = Ok r /\
           (* no eigenvalue dropped: the unique solution of Lap u = vec *)
           ((forall i j k, on_grid Nx Ny Nz i j k -> big (add (add (lx i) (ly j)) (lz k)) = true) ->
             forall u, (forall i j k, on_grid Nx Ny Nz i j k -> Lap u i j k = grd (dat vec) i j k) <->
                       (forall i j k, on_grid Nx Ny Nz i j k -> u i j k = grd (dat r) i j k)) /\
           (* dropped eigenvalues are zero: a solution whenever there is one *)
           ((forall i j k, on_grid Nx Ny Nz i j k -> big (add (add (lx i) (ly j)) (lz k)) = false -> add (add (lx i) (ly j)) (lz k) = zero) ->
             forall u, (forall i j k, on_grid Nx Ny Nz i j k -> Lap u i j k = grd (dat vec) i j k) ->
                       forall i j k, on_grid Nx Ny Nz i j k -> Lap (grd (dat r)) i j k = grd (dat vec) i j k)).

    Lemma Lap_ext u u' i j k : on_grid Nx Ny Nz i j k ->
      (forall a b c, on_grid Nx Ny Nz a b c -> u a b c = u' a b c) -> Lap u i j k = Lap u' i j k.
    Proof.
      intros [Hi [Hj Hk]] H. unfold Laplacian. rewrite !Sum_sumn. f_equal; [f_equal|]; apply sum_ext; intros; rewrite H; unfold on_grid; auto.
    Qed.

    Lemma applies_gen tA (Y1 Z1 : buf K) : Ny * Ny <= cap Y1 -> Nz * Nz <= cap Z1 ->
      eigensystem Nx (entry Vx Nx) (fun i a => elem K conj tA Vx 0 Nx a i) lx Lx ->
      eigensystem Ny (entry Vy Ny) (entry Y1 Ny) ly Ly -> eigensystem Nz (entry Vz Nz) (entry Z1 Nz) lz Lz ->
      applies (fun vec diag out j1 j2 => kron_gen K zero add mul conj Nx Ny Nz tA Y1 Z1 Vx Vy Vz vec diag out j1 j2).
    Proof.
      intros HY1 HZ1 Ex Ey Ez l0. destruct Mesh as [Px [Py [Pz Hm]]].
      set (W := fun i a => elem K conj tA Vx 0 Nx a i) in *.
      set (TT := T' K zero add mul Nx Ny Nz (entry Vx Nx) (entry Vy Ny) (entry Vz Nz) W (entry Y1 Ny) (entry Z1 Nz)).
      assert (R : forall vec diag out j1 j2, nd <= cap vec -> nd <= cap diag -> nd <= cap out ->
        exists r, kron_gen K zero add mul conj Nx Ny Nz tA Y1 Z1 Vx Vy Vz vec diag out j1 j2 = Ok r /\
          forall i j k, on_grid Nx Ny Nz i j k -> grd (dat r) i j k = TT (grd (dat diag)) (grd (dat vec)) i j k).
      { intros vec diag out j1 j2 H1 H2 H3.
        destruct (kron_gen_spec K zero add mul conj Nx Ny Nz Px Py Pz tA Y1 Z1 Vx Vy Vz vec diag out j1 j2) as [r [Er [_ Vr]]]; auto.
        exists r. split; [exact Er|]. intros i j k [Hi [Hj Hk]]. rewrite at_grid_grid, Vr by assumption.
        rewrite (T_T' K zero one add mul sub opp Rth). unfold TT.
        apply (T'_ext K zero add mul); intros; symmetry; apply at_grid_grid. }
      assert (Eg : forall i j k, on_grid Nx Ny Nz i j k -> grd (eigs l0) i j k = add (add (lx i) (ly j)) (lz k)).
      { intros i j k [Hi [Hj Hk]]. rewrite at_grid_grid. unfold eigs. apply (eig_spec K zero add mul conj Nx Ny Nz); assumption. }
      assert (TL : forall v i j k, on_grid Nx Ny Nz i j k -> TT (fun a b c => add (add (lx a) (ly b)) (lz c)) v i j k = Lap v i j k).
      { intros. eapply T2_lap; eauto. }
      assert (TC : forall d1 d2 v i j k, TT d1 (TT d2 v) i j k = TT (fun a b c => mul (d1 a b c) (d2 a b c)) v i j k).
      { intros. eapply T2_comp; eauto. }
      assert (T1 : forall v i j k, on_grid Nx Ny Nz i j k -> TT (fun _ _ _ => one) v i j k = v i j k).
      { intros. eapply T2_one; eauto. }
      assert (TE : forall d d' v v' i j k, (forall a b c, on_grid Nx Ny Nz a b c -> d a b c = d' a b c) ->
                 (forall a b c, on_grid Nx Ny Nz a b c -> v a b c = v' a b c) -> TT d v i j k = TT d' v' i j k).
      { intros. eapply T2_ext; eauto. }
      clearbody TT. split.
      - intros vec diag out j1 j2 H1 H2 H3 Hd. destruct (R vec diag out j1 j2 H1 H2 H3) as [r [Er Vr]].
        exists r. split; [exact Er|]. intros i j k H. rewrite Vr, <- TL by assumption. apply TE; [|reflexivity].
        intros a b c Ha. rewrite Hd, Eg by assumption. reflexivity.
      - intros vec diag out j1 j2 H1 H2 H3 Hd. destruct (R vec diag out j1 j2 H1 H2 H3) as [r [Er Vr]].
        exists r. split; [exact Er|].
        set (lam := fun a b c => add (add (lx a) (ly b)) (lz c)) in *.
        set (mu := fun a b c => if big (lam a b c) then inv (lam a b c) else zero).
        assert (Vr' : forall i j k, on_grid Nx Ny Nz i j k -> grd (dat r) i j k = TT mu (grd (dat vec)) i j k).
        { intros i j k H. rewrite Vr by assumption. apply TE; [|reflexivity]. intros a b c Ha. rewrite Hd by assumption.
          unfold mu. change (lam a b c) with (add (add (lx a) (ly b)) (lz c)). rewrite <- (Eg a b c Ha). reflexivity. }
        split.
        + intros HB u. split; intros Hu i j k H.
          * rewrite Vr' by assumption.
            transitivity (TT mu (TT lam u) i j k).
            -- rewrite TC. rewrite <- (T1 u i j k H) at 1. apply TE; [|reflexivity]. intros a b c Ha. unfold mu.
               pose proof (HB a b c Ha) as B. change (big (lam a b c) = true) in B. rewrite B.
               rewrite <- (inv_r _ B). ring.
            -- apply TE; [reflexivity|]. intros a b c Ha. rewrite TL by assumption. apply Hu. exact Ha.
          * rewrite <- TL by assumption. transitivity (TT lam (TT mu (grd (dat vec))) i j k).
            -- apply TE; [reflexivity|]. intros a b c Ha. rewrite Hu, Vr' by assumption. reflexivity.
            -- rewrite TC, <- (T1 (grd (dat vec)) i j k H). apply TE; [|reflexivity].
               intros a b c Ha. unfold mu. pose proof (HB a b c Ha) as B. change (big (lam a b c) = true) in B. rewrite B. apply inv_r. exact B.
        + intros HB u Hu i j k H. rewrite <- TL by assumption.
          transitivity (TT lam (TT mu (TT lam u)) i j k).
          * apply TE; [reflexivity|]. intros a b c Ha. rewrite Vr' by assumption. apply TE; [reflexivity|].
            intros a' b' c' Ha'. rewrite TL by assumption. symmetry. apply Hu. exact Ha'.
          * rewrite <- Hu, <- TL by assumption. rewrite TC, TC. apply TE; [|reflexivity]. intros a b c Ha. unfold mu.
            destruct (big (lam a b c)) eqn:B.
            -- rewrite inv_r by exact B. ring.
            -- pose proof (HB a b c Ha B) as Z. change (lam a b c = zero) in Z. rewrite Z. ring.
    Qed.

    (** Lap_Kron with real orthonormal eigenvectors. *)
    Theorem C50_real :
      eigensystem Nx (entry Vx Nx) (entry Vx Nx) lx Lx -> eigensystem Ny (entry Vy Ny) (entry Vy Ny) ly Ly ->
      eigensystem Nz (entry Vz Nz) (entry Vz Nz) lz Lz ->
      applies (fun vec diag out j1 j2 => Lap_Kron K zero add mul conj Nx Ny Nz Vx Vy Vz vec diag out j1 j2).
    Proof. intros Ex Ey Ez. apply (applies_gen Trans Vy Vz Cy Cz Ex Ey Ez). Qed.

    (** Lap_Kron_complex with VyH, VzH the conjugates of Vy, Vz. *)
    Theorem C50_complex (VyH VzH : buf K) : Ny * Ny <= cap VyH -> Nz * Nz <= cap VzH ->
      (forall x, x < Ny * Ny -> dat VyH x = conj (dat Vy x)) -> (forall x, x < Nz * Nz -> dat VzH x = conj (dat Vz x)) ->
      eigensystem Nx (entry Vx Nx) (fun i a => conj (entry Vx Nx i a)) lx Lx ->
      eigensystem Ny (entry Vy Ny) (fun i a => conj (entry Vy Ny i a)) ly Ly ->
      eigensystem Nz (entry Vz Nz) (fun i a => conj (entry Vz Nz i a)) lz Lz ->
      applies (fun vec diag out j1 j2 => Lap_Kron_complex K zero add mul conj Nx Ny Nz Vx Vy Vz VyH VzH vec diag out j1 j2).
    Proof.
      intros CyH CzH Hy Hz Ex Ey Ez. apply (applies_gen ConjTrans VyH VzH CyH CzH Ex).
      - destruct Ey as [E [O C]]. split; [exact E|]. split; intros a b Ha Hb.
        + rewrite <- O by assumption. rewrite !Sum_sumn. apply sum_ext; intros i Hi. f_equal. unfold entry. apply Hy. nia.
        + rewrite <- C by assumption. rewrite !Sum_sumn. apply sum_ext; intros i Hi. f_equal. unfold entry. apply Hy. nia.
      - destruct Ez as [E [O C]]. split; [exact E|]. split; intros a b Ha Hb.
        + rewrite <- O by assumption. rewrite !Sum_sumn. apply sum_ext; intros i Hi. f_equal. unfold entry. apply Hz. nia.
        + rewrite <- C by assumption. rewrite !Sum_sumn. apply sum_ext; intros i Hi. f_equal. unfold entry. apply Hz. nia.
    Qed.
  End Claims.
End Ring.

(** A 2 x 1 x 2 mesh over the rationals: rotated eigenvectors in x, plain ones in z. *)
Definition q (a : Z) (b : positive) : Qc := Q2Qc (a # b).
Definition ex_Vx : buf Qc := Buf 4 (fun x => nth x [q 3 5; q 4 5; q (-4) 5; q 3 5] (q 0 1)).
Definition ex_Vy : buf Qc := Buf 1 (fun _ => q 1 1).
Definition ex_Vz : buf Qc := Buf 4 (fun x => nth x [q 1 1; q 0 1; q 0 1; q 1 1] (q 0 1)).
Definition ex_lx (a : nat) : Qc := nth a [q 1 1; q 2 1] (q 0 1).
Definition ex_Lx (i j : nat) : Qc := nth (2 * i + j) [q 41 25; q (-12) 25; q (-12) 25; q 34 25] (q 0 1).
Example C50_ex :
  eigensystem Qc (q 0 1) (q 1 1) Qcplus Qcmult 2 (entry Qc ex_Vx 2) (entry Qc ex_Vx 2) ex_lx ex_Lx /\
  holds_mesh 2 1 2 /\
  (let id := fun x : Qc => x in
   let lz := fun _ : nat => q 3 1 in
   let eig := eigval_Lap_3D Qc Qcplus 2 1 2 ex_lx (fun _ => q 1 1) lz (fun _ => q 0 1) in
   match Lap_Kron Qc (q 0 1) Qcplus Qcmult id 2 1 2 ex_Vx ex_Vy ex_Vz (Buf 4 (fun x => q (Z.of_nat x) 1)) (Buf 4 eig) (Buf 4 (fun _ => q 0 1)) (fun _ => q 7 1) (fun _ => q 9 1) with
   | Ok r => map (fun x => this (dat r x)) [0; 1; 2; 3]
   | _ => []
   end = [(-12) # 25; 134 # 25; 246 # 25; 378 # 25]%Q).
Proof.
  split; [|split].
  - repeat split; intros i j Hi Hj;
      (destruct i as [|[|i]]; [| |lia]); (destruct j as [|[|j]]; [| |lia]); apply Qc_is_canon; vm_compute; reflexivity.
  - unfold holds_mesh. repeat split; lia.
  - vm_compute. reflexivity.
Qed.
Print Assumptions C50_real.
Print Assumptions C50_complex.
