-Q theories Verif
theories/Base.v
theories/BitsModel.v
theories/BitsFacts.v
theories/Select64.v
theories/VecModel.v
theories/VecProofs.v
theories/VecProofs2.v
theories/BitsSpec.v
theories/BitsTop.v
theories/Props_Bits.v
theories/ArtNode.v
theories/ArtModel.v
theories/ArtNodeProofs.v
theories/ArtNodeProofs2.v
theories/ArtNodeProofs3.v
theories/ArtTree.v
theories/ArtTree2.v
theories/ArtTree3.v
theories/ArtMono.v
theories/ArtRep.v
theories/ArtRep2.v
theories/ArtSeq.v
theories/ArtSeq2.v
theories/ArtSeq3.v
theories/ArtSpec.v
theories/ArtTop.v
theories/Props_Art.v
theories/ArtDelSpec.v
theories/ArtDelExact.v
theories/Props_Del.v
theories/SurfModel.v
theories/SurfTrie.v
theories/SurfSuffix.v
theories/SurfBuild.v
theories/SurfDense.v
theories/SurfEnc.v
theories/SurfSpec.v
theories/SurfBuildTop.v
theories/SurfGet.v
theories/SurfGet2.v
theories/SurfWalk.v
theories/SurfTop.v
theories/SurfSuffix2.v
theories/Props_Surf.v
theories/SurfSizeSpec.v
theories/SurfSize.v
theories/Props_Size.v
theories/SurfGetSpec.v
theories/SurfExact.v
theories/SurfAll.v
theories/Props_Exact.v
theories/SurfMarshal.v
theories/SurfMarshalProofs.v
theories/Props_Marshal.v
theories/SurfIter.v
theories/SurfSuffix3.v
theories/SurfIterSpec.v
theories/SurfLevel.v
theories/SurfVerdict.v
theories/SurfIterLevel.v
theories/SurfIterPath.v
theories/SurfIterDense.v
theories/SurfIterSparse.v
theories/SurfIterTop.v
theories/SurfIterMain.v
theories/Props_Iter.v
theories/SurfIterSeek.v
theories/SurfIterSeek2.v
theories/SurfIterCmp.v
theories/SurfIterSeek3.v
theories/SurfSeekAll.v
theories/Props_Seek.v
theories/Props_SeekAll.v
theories/SurfIterCursor.v
theories/Props_Cursor.v
theories/SurfPrevSpec.v
theories/SurfIterPrev.v
theories/SurfIterPrev2.v
theories/SurfIterPrev3.v
theories/SurfIterZero.v
theories/Props_IterAll.v
theories/SurfSafeSpec.v
theories/SurfSafe.v
theories/SurfSafe2.v
theories/SurfSafe3.v
theories/Props_Safe.v
theories/ArtConc.v
theories/ArtConcHeap.v
theories/ArtConcInv.v
theories/ArtConcStep.v
theories/ArtConcStep2.v
theories/ArtConcSpec.v
theories/ArtConcGlobal.v
theories/ArtConcLin.v
theories/ArtConcLock.v
theories/ArtConcSolo.v
theories/ArtConcRun.v
theories/Props_Conc.v
theories/ArtFine.v
theories/ArtFineRead.v
theories/ArtFineWrite.v
theories/ArtFineProofs.v
theories/ArtFineSpec.v
theories/ArtFineProps.v
theories/ArtFineNoDel.v
theories/ArtFineRun.v
theories/Props_Fine.v
theories/ArtSettledSpec.v
theories/ArtSettled.v
theories/Props_Settled.v
theories/SurfIO.v
theories/SurfIOSpec.v
theories/SurfIOProofs.v
theories/Props_IO.v
theories/SurfReuse.v
theories/Props_Reuse.v
theories/ArtRange.v
theories/ArtRangeProofs.v
theories/Props_Range.v
theories/ArtBeside.v
theories/ArtBesideProofs.v
theories/ArtBlame.v
theories/ArtLivelock.v
theories/Props_Live.v
theories/ArtWrap.v
theories/ArtWrapProofs.v
theories/ArtWrapBad.v
theories/ArtWrapSim.v
theories/Props_Wrap.v
theories/SurfAlias.v
theories/SurfAliasProofs.v
theories/SurfAliasTop.v
theories/Props_Alias.v
theories/SurfWord.v
theories/SurfWordSpec.v
theories/SurfWordProofs.v
theories/SurfWordLim.v
theories/SurfWordBuild.v
theories/SurfWordBuild2.v
theories/SurfWordTop.v
theories/SurfWordBig.v
theories/Props_Word.v
theories/SurfKeyMem.v
theories/SurfKeyMemSpec.v
theories/SurfKeyMemProofs.v
theories/SurfKeyMemTop.v
theories/Props_KeyMem.v
theories/SurfWordIter.v
theories/SurfWordIterProofs.v
theories/SurfWordIterSpec.v
theories/SurfWordIterTop.v
theories/SurfWordIterBig.v
theories/Props_WordIter.v
theories/SurfBuf.v
theories/SurfBufProofs.v
theories/SurfBufSpec.v
theories/SurfBufTop.v
theories/Props_Buf.v
theories/SurfBufVal.v
theories/SurfBufValProofs.v
theories/SurfBufValTop.v
theories/Props_BufVal.v
theories/ArtAlias.v
theories/ArtAliasSpec.v
theories/ArtAliasProofs.v
theories/Props_ArtAlias.v
theories/SurfWordMarshal.v
theories/SurfWordMarshalProofs.v
theories/Props_WordMarshal.v
theories/SurfCap.v
theories/SurfCapProofs.v
theories/Props_Cap.v
