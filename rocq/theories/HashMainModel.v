(** main of sample/MaskedHashSpGEMM.cpp, 27-214.

    Simplifications.  As in SampleModel.v, SpaMainModel.v, GenModel.v, ShufModel.v and HashHwModel.v; the macro KNL_EXE is not defined.  A
    negative number of threads counts as 0.  Of what is printed, the number of operations (71), the ten values (84-86) and name, nnz and
    threads of the lines 158-159 and 203-204 are kept, not the flags of Sorted, the times nor the compression ratios.  The matrices that
    SetInputMatricesAsCSR makes with new (sample_common.hpp 210-211) are not released by the program; like the arrays of A_csr and B_csr
    they are kept apart from the memory of the output object.  The end of main (210-211) is left out. *)
From Coq Require Import NArith ZArith String Ascii.
From stdpp Require Import gmap.
From Verif Require Import IoSpec IoModel MatModel ReportModel ShufModel GenModel.
From Verif Require Export SpaMainModel.
From Verif Require Import Base Spec.

Section HashMain.
Context {V : Type} (dflt : V) (mul add : V -> V -> V) (ofInt : Z -> V).
Context (pick : gmap nat (ablock V) -> nat) (null0 : bool) (stdsort : list (nat * V) -> list (nat * V)).
Context (generate : bool -> Z -> Z -> res (csc V * csc V)) (readBin : option text -> res (option (csc V)) -> Prop).
Context (files : text -> option text) (drawA drawB : nat -> nat -> nat).
Notation heap := (gmap nat (ablock V)).

(** The numbers of threads: MaskedHashSpGEMM.cpp 41-57 *)
Definition threadNumbers (argv : list text) : res (list nat) :=
  if length argv <? 6 then Ok [4; 8; 16; 32; 64] else a5 <- arg argv 5 ;; t <- atoi a5 ;; Ok [Z.to_nat t].
(** The two matrices, by rows, with shuffled rows; B_csr becomes A_csr: MaskedHashSpGEMM.cpp 59-68; sample_common.hpp 200-212 *)
Definition shuffledInputs (rI : res (csc V * csc V)) : res (csr V * csr V) :=
  ' (Ac, Bc) <- rI ;;
  A <- csrOfCsc dflt Ac ;;
  B <- csrOfCsc dflt Bc ;;
  _ <- sortedFlag (rows A) (rowptr A) (colids A) ;;
  _ <- sortedFlag (rows B) (rowptr B) (colids B) ;;
  A <- shuffleCsr true drawA A ;;
  B <- shuffleCsr true drawB B ;;
  Ok (A, A).

(** One number of threads of the first loop, the ten values: MaskedHashSpGEMM.cpp 78-88, and at 117 the destructor of C_csr *)
Definition hashFirst (itmax : nat) (A B : csr V) (t : nat) (h : heap) (r : res (heap * list (list V))) : Prop :=
  exists r1, call dflt pick null0 KOver (fun t _ => smpHash dflt mul add stdsort itmax A B t) t (defaultCtor, h) r1 /\
  r = (s <- r1 ;;
       first <- firstTen (fst s) (snd s) ;;
       s <- makeEmpty (fst s) (snd s) ;;
       s <- makeEmpty (fst s) (snd s) ;;
       Ok (snd s, [first])).

(** main: the result, the printed number of operations, the ten values of each run of the first loop and the lines of the second and of
    the third loop.  MaskedHashSpGEMM.cpp 29, 31-213 *)
Definition hashMain (itmax : nat) (argv : list text) (h : heap)
    (r : res (heap * (Z * option nat * list (list V) * list sline * list sline))) : Prop :=
  if length argv <? 4 then r = Ok (h, ((-1)%Z, None, [], [], []))
  else match threadNumbers argv with
  | Err e => r = Err e
  | Ok tnums =>
    exists rI, setInputs dflt ofInt stdsort (Z.of_nat itmax) generate readBin files argv rI /\
    match (' (A, B) <- shuffledInputs rI ;; flop <- getFlopCsr A B ;; Ok (A, B, flop)) with
    | Err e => r = Err e
    | Ok (A, B, flop) =>
      let bw := mkABench (str "mxm_hash_mask_wobin") KOver (fun _ _ => allWobin dflt mul add itmax A B A) in
      let bh := mkABench (str "mxm_hash_mask") KOver (fun t _ => allHash dflt mul add itmax A B A t) in
      exists r1, seqA (hashFirst itmax A B) tnums h r1 /\
      match r1 with
      | Err e => r = Err e
      | Ok (h, firsts) => exists r2, seqA (smpOne dflt pick null0 bw 10) tnums h r2 /\
        match r2 with
        | Err e => r = Err e
        | Ok (h, ws) => exists r3, seqA (smpOne dflt pick null0 bh 10) tnums h r3 /\
            r = (' (h, hs) <- r3 ;; Ok (h, (0%Z, Some flop, firsts, ws, hs)))
        end
      end
    end
  end.
End HashMain.
