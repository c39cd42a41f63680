*.vo
*.vos
*.vok
*.glob
.*.aux
.lia.cache
.nia.cache
.nra.cache
.Makefile*.d
rocq/Makefile
rocq/Makefile.conf
.nra.cache
.lia.cache
