(** Model of elphmod/elph.py:1309-1361 (read_prtgkk) and 1363-1386 (read_L), which read the output
    of EPW.

    Simplifications: as in Text.v. The process of rank 0 is modelled. *)
From Verif Require Export Text.
From Verif Require QeModel NmlModel.
Local Open Scope nat_scope.

(** [line.startswith(s)] (elph.py:1340, 1344) *)
Definition startswith (s : string) (line : text) : bool := QeModel.prefix (str s) line.
(** [l[-n]] (elph.py:1355, 1356) *)
Definition from_end {A} (n : nat) (l : list A) : res A := match nth_error (rev l) (n - 1) with Some x => Ok x | None => Raise IndexError end.
(** Index of an axis with [n] elements; negative ones count from the end (elph.py:1355, 1356). *)
Definition index (n : nat) (i : Z) : res nat :=
  if (0 <=? i)%Z && (i <? Z.of_nat n)%Z then Ok (Z.to_nat i)
  else if (- Z.of_nat n <=? i)%Z && (i <? 0)%Z then Ok (Z.to_nat (i + Z.of_nat n))
  else Raise IndexError.

(** [np.empty] (elph.py:1332, 1333): elements that have not been initialized are [None]. *)
Definition freqs : Type := nat -> nat -> option Q.
Definition couplings : Type := nat -> nat -> nat -> nat -> nat -> option Q.
(** Assignments of lines 1355 and 1356 *)
Definition set_w (w : freqs) (iq nu : nat) (x : Q) : freqs := fun iq' nu' => if (iq' =? iq) && (nu' =? nu) then Some x else w iq' nu'.
Definition set_g (g : couplings) (iq nu ik ibnd jbnd : nat) (x : Q) : couplings :=
  fun iq' nu' ik' i' j' => if (iq' =? iq) && (nu' =? nu) && (ik' =? ik) && (i' =? ibnd) && (j' =? jbnd) then Some x else g iq' nu' ik' i' j'.

(** ** read_prtgkk

    The loops of lines 1350-1352 as a list of (jbnd, ibnd, nu) *)
Definition loops (nbnd nmodes : nat) : list (nat * nat * nat) :=
  flat_map (fun jbnd => flat_map (fun ibnd => map (fun nu => (jbnd, ibnd, nu)) (seq 0 nmodes)) (seq 0 nbnd)) (seq 0 nbnd).
(** [ToSkip] and [ToRead]: lines that are requested via [next(lines)] before the loop over lines
    continues *)
Inductive request := ToSkip | ToRead (jbnd ibnd nu : nat).
(** elph.py:1347-1353 *)
Definition requests (nbnd nmodes : nat) : list request :=
  ToSkip :: ToSkip :: map (fun '(jbnd, ibnd, nu) => ToRead jbnd ibnd nu) (loops nbnd nmodes).
(** elph.py:1339-1356. [ik = None]: not defined yet *)
Fixpoint prtgkk (nq nmodes nk nbnd : nat) (w : freqs) (g : couplings) (iq : Z) (ik : option Z) (todo : list request) (ls : list text) : res (freqs * couplings) :=
  match ls with
  | [] => match todo with [] => Ok (w, g) | _ => Raise StopIteration end
  | line :: ls =>
    match todo with
    | ToSkip :: todo => prtgkk nq nmodes nk nbnd w g iq ik todo ls
    | ToRead jbnd ibnd nu :: todo =>
      let columns := str_split line in
      do a <- from_end 2 columns ;; do x <- to_float a ;;
      do i <- index nq iq ;;
      let w := set_w w i nu x in
      do b <- from_end 1 columns ;; do y <- to_float b ;;
      do k <- (match ik with Some ik => index nk ik | None => Raise UnboundLocalError end) ;;
      prtgkk nq nmodes nk nbnd w (set_g g i nu k ibnd jbnd y) iq ik todo ls
    | [] =>
      let '(iq, ik) := if startswith "     iq = " line then ((iq + 1)%Z, Some (-1)%Z) else (iq, ik) in
      if startswith "     ik = " line then
        match ik with
        | Some ik => prtgkk nq nmodes nk nbnd w g iq (Some (ik + 1)%Z) (requests nbnd nmodes) ls
        | None => Raise UnboundLocalError
        end
      else prtgkk nq nmodes nk nbnd w g iq ik [] ls
    end
  end.
(** elph.py:1332-1361 *)
Definition read_prtgkk (nq nmodes nk nbnd : nat) (file : text) : res (freqs * couplings) :=
  prtgkk nq nmodes nk nbnd (fun _ _ => None) (fun _ _ _ _ _ => None) (-1)%Z None [] (lines file).

(** ** read_L

    elph.py:1376-1386 *)
Fixpoint search_L (L : option Q) (ls : list text) : res (option Q) :=
  match ls with
  | [] => Ok L
  | line :: ls =>
    match str_split line with
    | c :: cols =>
      if NmlModel.teqb c §"L" then
        match cols with d :: _ => do x <- to_float d ;; search_L (Some x) ls | [] => Raise IndexError end
      else search_L L ls
    | [] => search_L L ls
    end
  end.
(** elph.py:1376-1386 *)
Definition read_L (file : text) : res (option Q) := search_L None (lines file).
