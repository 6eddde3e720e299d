-Q theories Verif
theories/Base.v
theories/Base64.v
theories/Parse.v
theories/Value.v
theories/Data.v
theories/De.v
theories/IntoRust.v
theories/Content.v
theories/Span.v
theories/Substr.v
theories/Ser.v
theories/Raw.v
theories/Facts.v
theories/Wp.v
theories/EnvOk.v
theories/Lit.v
theories/ShowFacts.v
theories/LexSafe.v
theories/DeSafe.v
theories/Fuel.v
theories/Limit.v
theories/ContentSafe.v
theories/Toy.v
theories/Layout.v
theories/Attr.v
theories/LexWs.v
theories/LexRead.v
theories/DocSafe.v
theories/DocRead.v
theories/SerLex.v
theories/LexDoc.v
theories/ThmLex.v
theories/Opt.v
theories/ThmAttr.v
theories/ThmSafety.v
theories/ThmWs.v
theories/PosFacts.v
theories/ThmPos.v
theories/ThmSubstr.v
theories/ValueFacts.v
theories/ThmValue.v
theories/Typing.v
theories/Typed.v
theories/B64.v
theories/B64Facts.v
theories/ThmText.v
theories/Keep.v
theories/Inv.v
theories/LexSound.v
theories/Repr.v
theories/Accept.v
theories/Made.v
theories/Pieces.v
theories/Sound.v
theories/DocSound.v
theories/ThmAccept.v
theories/ReprFacts.v
theories/TypedRead.v
theories/AnyRead.v
theories/TypedMain.v
theories/VRepr.v
theories/NumLocal.v
theories/NumExact.v
theories/AnyMain.v
theories/Unwrap.v
theories/ContentRead.v
theories/ContentMain.v
theories/StructSpec.v
theories/StructRead.v
theories/FailRead.v
theories/Blame.v
theories/SerWp.v
theories/RangeSpec.v
theories/SerNum.v
theories/SerRepr.v
theories/SerRaw.v
theories/SerOk.v
theories/SerBlind.v
theories/SerDocs.v
theories/Meta.v
theories/ThmMeta.v
theories/Conf.v
theories/SerDepth.v
theories/ThmConf.v
theories/ThmTyped.v
theories/ThmRange.v
theories/ThmAny.v
theories/ThmDots.v
theories/ThmUnwrap.v
theories/ThmFormat.v
theories/ThmInject.v
theories/ThmLine.v
theories/SerSim.v
theories/SerLimit.v
theories/SerMeta.v
theories/ThmSer.v
theories/ThmLimit.v
theories/ContentDepth.v
theories/ThmContent.v
theories/ThmStruct.v
theories/ThmLabel.v
theories/Exact.v
theories/More.v
theories/RawRead.v
theories/RawSpec.v
theories/RawEmbed.v
theories/RawMain.v
theories/SerEmbed.v
theories/ThmRaw.v
theories/ThmEmbed.v
theories/ThmInto.v
theories/Through.v
theories/ThmThrough.v
theories/Buffered.v
theories/ContentWrite.v
theories/Tagged.v
theories/Owned.v
theories/TaggedSafe.v
theories/TaggedRead.v
theories/TaggedWrite.v
theories/Drawn.v
theories/ConvFuel.v
theories/ThmUntagged.v
theories/ThmTagged.v
theories/Adjacent.v
theories/AdjacentSafe.v
theories/AdjacentRead.v
theories/AdjacentWrite.v
theories/ThmAdjacent.v
theories/ThmEnums.v
theories/Flatten.v
theories/FlatSafe.v
theories/FlatRead.v
theories/FlatFail.v
theories/FlatWrite.v
theories/ThmFlatten.v
theories/Wider.v
theories/ThmWider.v
theories/Evolve.v
theories/ThmEvolve.v
theories/Message.v
theories/ThmMessage.v
theories/Audit.v
